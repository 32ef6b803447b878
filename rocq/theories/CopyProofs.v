(** State copying: value of the diagram without the vertices marked for removal. *)
From Coq Require Import Reals ZArith QArith Qcanon List Bool Arith Lia Permutation FunctionalExtensionality.
From Verif Require Import LinModel LinProofs CNum Base ScalarModel ScalarProofs GraphModel GraphSem SumLemmas GraphProofs GraphOps RulesModel RuleLemmas
  SpiderProofs IsoProofs IdProofs LcompProofs PivotProofs PivotMatch GrowProofs StoreProofs InvProofs BfixProofs TotalProofs GrowTotal
  GateModel CircSpec GateProofs GateMask AmpProofs CircGraphModel CircGraphProofs CircGraphFacts VerifyProofs GraphAlgModel GraphAlgProofs GraphAlgFacts
  ComposeProofs ApplyProofs ExtractModel ExtractSem ExtractMap ExtractClean ExtractCz ExtractFront ExtractNbrs SimpModel TidyModel TidySub.
Import ListNotations.
Open Scope nat_scope.

Definition notB (g : graph) (L : list nat) : list nat := filter (fun v => negb (isB g v)) L.
(** value of the part of the diagram on the vertices L *)
Definition semL (L : list nat) (g : graph) (y : assignment) : C := sumv (notB g L) (integL L g) y.
Lemma sem_semL : forall g y, sem g y = semL (vertices g) g y.
Proof. reflexivity. Qed.
Lemma semL_removed : forall vs g g' y, removed vs g g' -> sem g' y = semL (without vs (vertices g)) g y.
Proof.
  intros vs g g' y R. unfold sem, semL, internal, notB. rewrite (rm_vs _ _ _ R). fold (without vs (vertices g)).
  assert (E : forall v, In v (without vs (vertices g)) -> ~ In v vs) by (intros v Hv; apply in_without in Hv; tauto).
  rewrite (filter_ext_in (fun v => negb (isB g' v)) (fun v => negb (isB g v)) (without vs (vertices g))).
  2:{ intros v Hv. unfold isB. rewrite (rm_ty _ _ _ R); auto. }
  apply sumv_ext. intros x. apply (integL_removed vs g g'); auto.
Qed.

(** value of the part on R, times the weights of the wires from w (with bit a) to ns *)
Definition wired (w : nat) (a : bool) (ns R : list nat) (g : graph) (y : assignment) : C :=
  sumv (notB g R) (fun x => integL R g x * cprod (fun n => ew g w n a (x n)) ns)%C y.

Lemma half_sum : forall a c, (sgn (a && false) * (sq2p (-1) * sgn (false && c)) + sgn (a && true) * (sq2p (-1) * sgn (true && c)) = if Bool.eqb a c then sq2p 1 else C0)%C.
Proof.
  assert (T : (sq2p (-1) + sq2p (-1) = sq2p 1)%C).
  { transitivity ((C1 + C1) * sq2p (-1))%C; [ring|]. rewrite <- sq2p_2, <- sq2p_add. auto. }
  intros [] []; unfold sgn; cbn [andb Bool.eqb].
  - rewrite <- T. ring.
  - ring.
  - ring.
  - rewrite <- T. ring.
Qed.
Lemma copy_out : forall g R v w y, wfg g -> NoDup R -> In v R -> In w R -> v <> w -> vty g v = ZSP -> vty g w = ZSP ->
  edge_type g v w = Some HADAMARD -> (forall u, In u R -> u <> w -> edge_type g v u = None) -> is_pauli (phase g v) = true ->
  semL R g y = (sq2p 1 * ephase (phase g w) (pbit (phase g v)) * wired w (pbit (phase g v)) (without [v; w] R) (without [v; w] R) g y)%C.
Proof.
  intros g R v w y W N Iv Iw D Tv Tw E Ev P. set (R0 := without [v; w] R). set (a := pbit (phase g v)).
  assert (H0 : forall u, In u R0 <-> In u R /\ u <> v /\ u <> w) by (intros u; unfold R0; rewrite in_without; simpl; intuition).
  assert (PR : Permutation R ([v; w] ++ R0)).
  { apply nodup_same_perm; auto.
    - constructor; [simpl; rewrite H0; intuition|]. constructor; [rewrite H0; intuition|]. apply NoDup_filter. auto.
    - intros u. simpl. rewrite H0. split.
      + intros Hu. destruct (Nat.eq_dec u v); [left; auto|]. destruct (Nat.eq_dec u w); [right; left; auto|right; right; auto].
      + intros [<-|[<-|Hu]]; tauto. }
  unfold semL, notB.
  assert (PF : Permutation (filter (fun u => negb (isB g u)) R) (filter (fun u => negb (isB g u)) R0 ++ [v; w])).
  { eapply perm_trans; [apply filter_perm; exact PR|]. rewrite filter_app. cbn [filter]. unfold isB at 1 2. rewrite Tv, Tw. cbn [vtype_eqb negb]. apply Permutation_app_comm. }
  rewrite (sumv_perm _ _ PF) by (apply NoDup_filter; auto). rewrite sumv_app. unfold wired, notB. rewrite <- sumv_scal. apply sumv_ext. intros x.
  assert (Nv : ~ In v R0) by (rewrite H0; tauto). assert (Nw : ~ In w R0) by (rewrite H0; tauto).
  assert (Q : forall c d, integL R g (upd (upd x v c) w d) =
     (integL R0 g x * (ephase (phase g v) c * ephase (phase g w) d * (sq2p (-1) * sgn (c && d)) * cprod (fun n => ew g w n d (x n)) R0))%C).
  { intros c d. rewrite (integL_perm g _ _ _ W PR), integL_app, !integL_indep by auto. cbn [cprod pprod].
    rewrite upd_same, (upd_other _ w d v), upd_same by auto. unfold pw, isB. rewrite Tv, Tw. cbn [vtype_eqb].
    assert (Xv : isX g v = false) by (unfold isX; rewrite Tv; auto). assert (Xw : isX g w = false) by (unfold isX; rewrite Tw; auto).
    rewrite (ew_plain g v w), E by auto. cbn [wt].
    rewrite (cprod_1 _ (fun n => ew g v n c (upd (upd x v c) w d n)) R0).
    2:{ intros u Hu. apply H0 in Hu. unfold ew. rewrite Ev by tauto. auto. }
    rewrite (cprod_ext _ (fun n => ew g w n d (upd (upd x v c) w d n)) (fun n => ew g w n d (x n))).
    2:{ intros u Hu. apply H0 in Hu. rewrite !upd_other by tauto. auto. }
    ring. }
  cbn [sumv]. rewrite !Q, !(pauli_ephase (phase g v)) by auto. fold a.
  set (I0 := integL R0 g x). set (G := fun d => (ephase (phase g w) d * cprod (fun n => ew g w n d (x n)) R0)%C).
  transitivity (I0 * (G false * (sgn (a && false) * (sq2p (-1) * sgn (false && false)) + sgn (a && true) * (sq2p (-1) * sgn (true && false)))
                   + G true * (sgn (a && false) * (sq2p (-1) * sgn (false && true)) + sgn (a && true) * (sq2p (-1) * sgn (true && true)))))%C.
  { unfold G. ring. }
  rewrite !half_sum. unfold G. destruct a; cbn [Bool.eqb]; ring.
Qed.

(** the weight of a wire from the copied state, as a fresh spider *)
Lemma copied_wire : forall e a c, (sgn (a && false) * wt (Some (toggle_edge e)) false c + sgn (a && true) * wt (Some (toggle_edge e)) true c = sq2p 1 * wt (Some e) a c)%C.
Proof.
  intros [] a c; cbn [toggle_edge wt].
  - rewrite half_sum. unfold dlt. destruct a, c; cbn [Bool.eqb]; ring.
  - assert (T : (sq2p 1 * sq2p (-1) = C1)%C) by (rewrite <- sq2p_add; apply sq2p_0).
    transitivity (sgn (a && c)); [|transitivity ((sq2p 1 * sq2p (-1)) * sgn (a && c))%C; [rewrite T; ring|ring]].
    destruct a, c; unfold sgn, dlt; cbn [andb Bool.eqb]; ring.
Qed.

(** ** One neighbour *)
(** [g] is [g0] with the neighbours in [P] given the copied state *)
Record cst (g0 : graph) (P : list nat) (g : graph) : Prop := mkcst {
  cs_wf : wfg g; cs_loop : noloop g; cs_in02 : forall u, In u (vertices g) -> in02 (phase g u);
  cs_vs : incl (vertices g0) (vertices g);
  cs_ty : forall u, In u (vertices g0) -> vty g u = vty g0 u;
  cs_new : forall u, In u (vertices g) -> ~ In u (vertices g0) -> vty g u = ZSP;
  cs_old : forall s t, In s (vertices g0) -> In t (vertices g0) -> edge_type g s t = edge_type g0 s t;
  cs_ne : forall u t, ~ In u (vertices g0) -> edge_type g u t <> None -> In t (vertices g0) /\ vty g0 t = BOUNDARY;
  cs_b0 : forall b t, In b (vertices g0) -> ~ In b P -> ~ In t (vertices g0) -> edge_type g b t = None;
  cs_b1 : forall b, In b (vertices g0) -> vty g0 b = BOUNDARY -> In b P -> exists u, ~ In u (vertices g0) /\ forall t, ~ In t (vertices g0) -> (edge_type g b t <> None <-> t = u);
  cs_ph : forall u, In u (vertices g0) -> ~ In u P -> phase g u = phase g0 u;
  cs_i : ginputs g = ginputs g0; cs_o : goutputs g = goutputs g0; cs_r : rows_ok g; cs_q : allph quarter g0 -> allph quarter g }.
Lemma pauli_quarter : forall a, is_pauli a = true -> quarter a.
Proof. intros a H. unfold is_pauli in H. apply orb_true_iff in H. rewrite !qeqb_eq in H. destruct H as [->| ->]; [apply quarter_0|apply quarter_1]. Qed.
Lemma cst_refl : forall g, wfg g -> noloop g -> (forall u, In u (vertices g) -> in02 (phase g u)) -> rows_ok g -> cst g [] g.
Proof.
  intros g W L P R. constructor; auto; try (intros; contradiction); try (intros u Hu; auto; fail).
  - intros u t N E. exfalso. apply E. exact (proj1 (edge_none_out g u t W N)).
  - intros b t _ _ N. exact (proj2 (edge_none_out g t b W N)).
Qed.
Lemma cst_scalar : forall g0 P g f, cst g0 P g -> cst g0 P (on_scalar f g).
Proof. intros g0 P g f H. destruct H. constructor; auto. apply on_scalar_wfg; auto. Qed.
Lemma cst_isX : forall g0 P g u, (forall u, In u (vertices g0) -> vty g0 u <> XSP) -> cst g0 P g -> In u (vertices g) -> isX g u = false.
Proof.
  intros g0 P g u X H Hu. unfold isX. destruct (in_dec Nat.eq_dec u (vertices g0)) as [I|I].
  - rewrite (cs_ty _ _ _ H) by auto. specialize (X u I). destruct (vty g0 u); auto. congruence.
  - rewrite (cs_new _ _ _ H) by auto. auto.
Qed.
Lemma without_app : forall S A B, without S (A ++ B) = without S A ++ without S B.
Proof. intros. unfold without. apply filter_app. Qed.
Lemma wired_ext : forall w a ns R g g' y, (forall v, In v R -> vty g' v = vty g v) -> (forall x, integL R g' x = integL R g x) ->
  (forall n x, In n ns -> ew g' w n a (x n) = ew g w n a (x n)) -> wired w a ns R g' y = wired w a ns R g y.
Proof.
  intros w a ns R g g' y T I E. unfold wired, notB.
  rewrite (filter_ext_in (fun v => negb (isB g' v)) (fun v => negb (isB g v)) R) by (intros v Hv; unfold isB; rewrite T; auto).
  apply sumv_ext. intros x. rewrite I. f_equal. apply cprod_ext. auto.
Qed.

Lemma copy_nbr_Z : forall g0 P g w a n rem ns y, cst g0 P g -> (forall u, In u (vertices g0) -> vty g0 u <> XSP) ->
  In w (vertices g0) -> In n (vertices g0) -> vty g0 n = ZSP -> edge_type g0 w n = Some HADAMARD -> is_pauli a = true ->
  let g' := add_to_phase n a g in copy_nbr w a g n = Ok g' /\ cst g0 (P ++ [n]) g' /\ vertices g' = vertices g /\ gscalar g' = gscalar g /\
  (In n rem -> wired w (pbit a) ns (without rem (vertices g)) g y = wired w (pbit a) ns (without rem (vertices g')) g' y) /\
  (~ In n rem -> wired w (pbit a) (n :: ns) (without rem (vertices g)) g y = (sq2p (-1) * wired w (pbit a) ns (without rem (vertices g')) g' y)%C).
Proof.
  intros g0 P g w a n rem ns y H NX Hw Hn Tn E PA g'. assert (W := cs_wf _ _ _ H). assert (In' := cs_vs _ _ _ H n Hn).
  assert (Tg : vty g n = ZSP) by (rewrite (cs_ty _ _ _ H); auto).
  split; [unfold copy_nbr; rewrite vtype_r_ok, Tg by auto; reflexivity|].
  split; [|split; [reflexivity|split; [reflexivity|split]]].
  - unfold g'. destruct H. constructor; auto.
    + apply add_to_phase_wfg; auto.
    + intros u Hu. rewrite phase_add_to_phase. destruct (Nat.eqb u n); auto. apply qmod2_range.
    + intros b t Hb N. rewrite in_app_iff in N. simpl in N. apply cs_b2; tauto.
    + intros b Hb Tb Pb. apply in_app_iff in Pb. destruct Pb as [Pb|[<-|[]]]; [apply cs_b3; auto|congruence].
    + intros u Hu N. rewrite in_app_iff in N. simpl in N. rewrite phase_add_to_phase. destruct (Nat.eqb_spec u n); [subst; tauto|]. apply cs_ph0; tauto.
    + intros Q. apply allph_add_to_phase; auto; [apply quarter_closed|left; apply pauli_quarter; auto].
  - intros Hr. unfold g'. symmetry. apply wired_ext; auto. intros x. apply integL_add_to_phase_out. change (vertices (add_to_phase n a g)) with (vertices g). rewrite in_without. tauto.
  - intros Hr. unfold g', wired. change (vertices (add_to_phase n a g)) with (vertices g). set (R := without rem (vertices g)).
    rewrite <- sumv_scal. change (notB (add_to_phase n a g) R) with (notB g R). apply sumv_ext. intros x.
    rewrite integL_add_to_phase; [|apply NoDup_filter, wf_nd; auto|apply in_without; auto|unfold isB; rewrite Tg; auto].
    cbn [cprod]. rewrite (ew_plain g w n), (cs_old _ _ _ H), E, pauli_ephase; auto; try (apply (cst_isX g0 P g); auto; apply (cs_vs _ _ _ H); auto).
    cbn [wt]. change (fun n0 => ew (add_to_phase n a g) w n0 (pbit a) (x n0)) with (fun n0 => ew g w n0 (pbit a) (x n0)). ring.
Qed.

Lemma copy_nbr_B : forall g0 P g w a n rem e, cst g0 P g -> (forall u, In u (vertices g0) -> vty g0 u <> XSP) ->
  In w (vertices g0) -> In n (vertices g0) -> vty g0 n = BOUNDARY -> ~ In n P -> edge_type g0 w n = Some e -> is_pauli a = true -> incl rem (vertices g0) ->
  In w rem -> ~ In n rem ->
  exists g' u, copy_nbr w a g n = Ok g' /\ cst g0 (P ++ [n]) g' /\ vertices g' = vertices g ++ [u] /\ gscalar g' = gscalar g /\
  forall ns y, incl ns (vertices g0) -> wired w (pbit a) (n :: ns) (without rem (vertices g)) g y = (sq2p (-1) * wired w (pbit a) ns (without rem (vertices g')) g' y)%C.
Proof.
  intros g0 P g w a n rem e H NX Hw Hn Tn NP E PA IR Rw Rn. assert (W := cs_wf _ _ _ H). assert (In' := cs_vs _ _ _ H n Hn).
  assert (Tg : vty g n = BOUNDARY) by (rewrite (cs_ty _ _ _ H); auto).
  unfold copy_nbr. rewrite vtype_r_ok, Tg by auto. cbn [bind vtype_eqb].
  destruct (add_vertex ZSP (qubit g n) (if nmem n (goutputs g) then (row g n - 1)%Qc else (row g n + 1)%Qc) (Some a) g) as [g1 u] eqn:A1.
  destruct (add_vertex_spec _ _ _ _ _ _ _ W A1) as [Eu [W1 [V1 [E1 [N1 [T1 [P1 [I1 [O1 S1]]]]]]]]].
  destruct (add_vertex_rows _ _ _ _ _ _ _ W (cs_r _ _ _ H) A1) as [_ [R1 _]].
  assert (Nu : ~ In u (vertices g)) by (subst u; apply fresh_not_in; auto). assert (Nu0 : ~ In u (vertices g0)) by (intros X; apply Nu, (cs_vs _ _ _ H); auto).
  assert (Dun : n <> u) by (intros ->; auto).
  assert (QA : qmod2 a = a). { unfold is_pauli in PA. apply orb_true_iff in PA. rewrite !qeqb_eq in PA. destruct PA as [->| ->]; reflexivity. }
  rewrite E1, (cs_old _ _ _ H), E by auto. cbn [of_opt bind].
  assert (EN : edge_type g1 n u = None) by (rewrite E1; apply (proj2 (edge_none_out g u n W Nu))).
  destruct (add_edge_ok n u (toggle_edge e) g1 W1 Dun) as [g2 A2]; [rewrite V1, in_app_iff; auto|rewrite V1, in_app_iff; simpl; auto|auto|].
  rewrite A2. cbn [bind]. destruct (fresh_edge _ _ _ _ _ W1 Dun EN A2) as [W2 [F2 [P2 [S2 [_ [_ E2]]]]]].
  assert (V2 : vertices g2 = vertices g ++ [u]) by (rewrite (proj1 F2), V1; auto).
  set (g' := add_to_phase n a g2). assert (W' : wfg g'). { apply add_to_phase_wfg; auto. rewrite V2, in_app_iff; auto. }
  assert (ET : forall s t, edge_type g' s t = if pair_hit n u s t then Some (toggle_edge e) else edge_type g s t).
  { intros s t. change (edge_type g2 s t = if pair_hit n u s t then Some (toggle_edge e) else edge_type g s t). rewrite E2, E1. auto. }
  assert (TY : forall x, vty g' x = if Nat.eqb x u then ZSP else vty g x).
  { intros x. change (vty g2 x = if Nat.eqb x u then ZSP else vty g x). rewrite (same_frame_vty _ _ _ F2). apply T1. }
  assert (PH : forall x, phase g' x = if Nat.eqb x n then qmod2 (phase g n + a)%Qc else if Nat.eqb x u then a else phase g x).
  { intros x. unfold g'. rewrite phase_add_to_phase. assert (Q : forall z, phase g2 z = phase g1 z) by (intros z; unfold phase; rewrite P2; auto).
    rewrite !Q, !P1, QA. destruct (Nat.eqb_spec n u); [contradiction|]. auto. }
  exists g', u. split; [reflexivity|]. split; [|split; [exact V2|split; [change (gscalar g2 = gscalar g); congruence|]]].
  - assert (PHIT : forall s t, In s (vertices g0) -> In t (vertices g0) -> pair_hit n u s t = false).
    { intros s t Hs Ht. unfold pair_hit. destruct (Nat.eqb_spec s u), (Nat.eqb_spec t u); subst; try contradiction. rewrite !andb_false_r. auto. }
    constructor; auto.
    + intros s. rewrite ET. unfold pair_hit. destruct (Nat.eqb_spec s n), (Nat.eqb_spec s u); subst; try contradiction; cbn [andb orb]; apply (cs_loop _ _ _ H).
    + intros x Hx. change (In x (vertices g2)) in Hx. rewrite V2, in_app_iff in Hx. rewrite PH. destruct (Nat.eqb_spec x n); [apply qmod2_range|].
      destruct (Nat.eqb_spec x u); [rewrite <- QA; apply qmod2_range|]. apply (cs_in02 _ _ _ H). destruct Hx as [|[|[]]]; auto. congruence.
    + intros x Hx. change (In x (vertices g2)). rewrite V2, in_app_iff. left. apply (cs_vs _ _ _ H); auto.
    + intros x Hx. rewrite TY. destruct (Nat.eqb_spec x u); [subst; contradiction|]. apply (cs_ty _ _ _ H); auto.
    + intros x Hx N. change (In x (vertices g2)) in Hx. rewrite V2, in_app_iff in Hx. rewrite TY. destruct (Nat.eqb_spec x u); auto.
      apply (cs_new _ _ _ H); auto. destruct Hx as [|[|[]]]; auto. congruence.
    + intros s t Hs Ht. rewrite ET, PHIT by auto. apply (cs_old _ _ _ H); auto.
    + intros s t N X. rewrite ET in X. unfold pair_hit in X. destruct (Nat.eqb_spec s n); [subst; contradiction|]. cbn [andb orb] in X.
      destruct (Nat.eqb_spec s u); cbn [andb] in X; [|apply (cs_ne _ _ _ H s t); auto].
      destruct (Nat.eqb_spec t n); [subst; auto|]. subst s. apply (cs_ne _ _ _ H u t); auto.
    + intros b t Hb N Nt. rewrite in_app_iff in N. simpl in N. rewrite ET. unfold pair_hit. destruct (Nat.eqb_spec b n); [subst; tauto|]. cbn [andb orb].
      destruct (Nat.eqb_spec b u); [subst; contradiction|]. cbn [andb]. apply (cs_b0 _ _ _ H); tauto.
    + intros b Hb Tb Pb. destruct (Nat.eq_dec b n) as [->|Db].
      * exists u. split; auto. intros t Nt. rewrite ET. unfold pair_hit. rewrite Nat.eqb_refl. destruct (Nat.eqb_spec t u); cbn [andb orb]; [intuition congruence|].
        destruct (Nat.eqb_spec n u); [contradiction|]. cbn [andb]. rewrite (cs_b0 _ _ _ H) by auto. intuition congruence.
      * apply in_app_iff in Pb. destruct Pb as [Pb|[<-|[]]]; [|contradiction]. destruct (cs_b1 _ _ _ H b Hb Tb Pb) as [u' [Nu' Hu']]. exists u'. split; auto. intros t Nt.
        rewrite ET. unfold pair_hit. destruct (Nat.eqb_spec b n); [contradiction|]. destruct (Nat.eqb_spec b u); [subst; contradiction|]. cbn [andb orb]. apply Hu'; auto.
    + intros x Hx N. rewrite in_app_iff in N. simpl in N. rewrite PH. destruct (Nat.eqb_spec x n); [subst; tauto|]. destruct (Nat.eqb_spec x u); [subst; contradiction|].
      apply (cs_ph _ _ _ H); tauto.
    + change (ginputs g2 = ginputs g0). rewrite (proj1 (proj2 (proj2 F2))), I1. apply H.
    + change (goutputs g2 = goutputs g0). rewrite (proj1 (proj2 (proj2 (proj2 F2)))), O1. apply H.
    + intros x Hx. change (dget x (grindex g2) <> None). destruct F2 as [F21 [_ [_ [_ [_ [_ ->]]]]]]. apply R1. rewrite <- F21. exact Hx.
    + intros Q x Hx. change (In x (vertices g2)) in Hx. rewrite V2, in_app_iff in Hx. assert (QG := cs_q _ _ _ H Q). rewrite PH. destruct (Nat.eqb_spec x n); [apply quarter_mod2, quarter_add; [apply QG; auto|apply pauli_quarter; auto]|].
      destruct (Nat.eqb_spec x u); [apply pauli_quarter; auto|]. apply QG. destruct Hx as [|[|[]]]; auto. congruence.
  - intros ns y INS. change (vertices g') with (vertices g2). rewrite V2, without_app. set (R := without rem (vertices g)).
    assert (NRu : ~ In u rem) by (intros X; apply Nu0, IR; auto). assert (NR : ~ In u R) by (unfold R; rewrite in_without; tauto).
    assert (IRn : In n R) by (unfold R; rewrite in_without; auto). assert (NDR : NoDup R) by (apply NoDup_filter, wf_nd; auto).
    assert (SU : without rem [u] = [u]). { unfold without. cbn [filter]. rewrite (proj2 (mem_false _ _) NRu). auto. } rewrite SU.
    unfold wired. assert (NB : notB g' (R ++ [u]) = notB g R ++ [u]).
    { unfold notB. rewrite filter_app. cbn [filter]. unfold isB at 2. rewrite TY, Nat.eqb_refl. cbn [vtype_eqb negb]. f_equal. apply filter_ext_in. intros x Hx. unfold isB. rewrite TY.
      destruct (Nat.eqb_spec x u); [subst; contradiction|auto]. }
    rewrite NB, sumv_app, <- sumv_scal. apply sumv_ext. intros x.
    assert (XX : forall z, In z (vertices g0) -> isX g z = false /\ isX g' z = false).
    { intros z Hz. specialize (NX z Hz). unfold isX. rewrite TY, (cs_ty _ _ _ H) by auto. destruct (Nat.eqb_spec z u); [subst; contradiction|]. destruct (vty g0 z); auto; congruence. }
    assert (CP : forall c, cprod (fun z => ew g' w z (pbit a) (upd x u c z)) ns = cprod (fun z => ew g w z (pbit a) (x z)) ns).
    { intros c. apply cprod_ext. intros z Hz. assert (Hz0 := INS z Hz). rewrite upd_other by (intros ->; contradiction).
      destruct (XX w Hw), (XX z Hz0). rewrite !ew_plain, ET by auto. replace (pair_hit n u w z) with false; auto.
      symmetry. unfold pair_hit. destruct (Nat.eqb_spec z u); [subst; contradiction|]. destruct (Nat.eqb_spec w u); [subst; contradiction|]. rewrite !andb_false_r. auto. }
    assert (Q : forall c, integL (R ++ [u]) g' (upd x u c) = (integL R g x * (sgn (pbit a && c) * wt (Some (toggle_edge e)) c (x n)))%C).
    { intros c. rewrite (integL_perm g' _ ([u] ++ R) _ W' (Permutation_app_comm _ _)), integL_app, integL_indep by auto. cbn [cprod pprod].
      rewrite upd_same. unfold pw at 1, isB. rewrite TY, PH, Nat.eqb_refl. destruct (Nat.eqb_spec u n); [congruence|]. cbn [vtype_eqb]. rewrite pauli_ephase by auto.
      assert (IE : integL R g' x = integL R g x).
      { transitivity (integL R g2 x).
        - unfold integL. f_equal. f_equal. apply cprod_ext. intros z Hz. unfold pw, isB. change (vty g' z) with (vty g2 z). destruct (vtype_eqb (vty g2 z) BOUNDARY) eqn:B; auto.
          f_equal. unfold g'. rewrite phase_add_to_phase. destruct (Nat.eqb_spec z n); auto. subst z. exfalso. rewrite (same_frame_vty _ _ _ F2), T1, Tg in B.
          destruct (Nat.eqb_spec n u); [contradiction|discriminate].
        - apply integL_ext; [congruence| |].
          + intros z Hz. assert (z <> u) by (intros ->; contradiction). split.
            * rewrite (same_frame_vty _ _ _ F2), T1. destruct (Nat.eqb_spec z u); [contradiction|auto].
            * unfold phase. rewrite P2. fold (phase g1 z). rewrite P1. destruct (Nat.eqb_spec z u); [contradiction|auto].
          + intros z z' Hz Hz'. rewrite E2, E1. unfold pair_hit. destruct (Nat.eqb_spec z u); [subst; contradiction|]. destruct (Nat.eqb_spec z' u); [subst; contradiction|].
            rewrite !andb_false_r. auto. }
      rewrite IE.
      assert (OT : forall z, In z R -> z <> n -> edge_type g' u z = None).
      { intros z Hz D. rewrite ET. unfold pair_hit. destruct (Nat.eqb_spec u n); [congruence|]. destruct (Nat.eqb_spec z n); [contradiction|]. rewrite andb_false_r. cbn [andb orb].
        apply (proj1 (edge_none_out g u z W Nu)). }
      assert (PM : Permutation R (n :: without [n] R)).
      { apply nodup_same_perm; auto; [constructor; [rewrite in_without; simpl; tauto|apply NoDup_filter; auto]|]. intros z. simpl. rewrite in_without. simpl.
        split; [intros Hz; destruct (Nat.eq_dec z n); [left; auto|right; split; [auto|intros [X|[]]; congruence]]|intros [<-|Hz]; [auto|tauto]]. }
      rewrite (cprod_perm _ _ _ _ PM). cbn [cprod]. rewrite upd_other by auto. rewrite (cprod_1 _ _ (without [n] R)).
      2:{ intros z Hz. apply in_without in Hz. unfold ew. rewrite OT; [auto|tauto|simpl in Hz; intuition]. }
      rewrite ew_plain; [|unfold isX; rewrite TY, Nat.eqb_refl; auto|apply (XX n Hn)].
      replace (edge_type g' u n) with (Some (toggle_edge e)). { ring. }
      rewrite ET. unfold pair_hit. rewrite !Nat.eqb_refl. rewrite !orb_true_r. auto. }
    cbn [sumv cprod]. rewrite !Q, !CP. destruct (XX w Hw), (XX n Hn). rewrite (ew_plain g w n), (cs_old _ _ _ H), E by auto.
    transitivity (sq2p (-1) * (integL R g x * cprod (fun z => ew g w z (pbit a) (x z)) ns * (sgn (pbit a && false) * wt (Some (toggle_edge e)) false (x n) + sgn (pbit a && true) * wt (Some (toggle_edge e)) true (x n))))%C; [|ring].
    rewrite copied_wire. assert (T : (sq2p (-1) * sq2p 1 = C1)%C) by (rewrite <- sq2p_add; apply sq2p_0).
    transitivity ((sq2p (-1) * sq2p 1) * (integL R g x * cprod (fun z => ew g w z (pbit a) (x z)) ns * wt (Some e) (pbit a) (x n)))%C; [rewrite T; ring|ring].
Qed.

(** ** All neighbours of one match *)
Lemma copy_nbrs : forall neigh g0 P g w a rem, cst g0 P g -> glike g0 ->
  In w (vertices g0) -> vty g0 w = ZSP -> NoDup neigh -> (forall n, In n neigh -> In n (vertices g0) /\ edge_type g0 w n <> None) ->
  (forall n, In n neigh -> vty g0 n = BOUNDARY -> ~ In n P) -> is_pauli a = true -> incl rem (vertices g0) -> (forall u, In u rem -> vty g0 u = ZSP) -> In w rem ->
  exists g', foldM (copy_nbr w a) neigh g = Ok g' /\ cst g0 (P ++ neigh) g' /\ gscalar g' = gscalar g /\
  forall y, wired w (pbit a) (without rem neigh) (without rem (vertices g)) g y = (sq2p (- Z.of_nat (length (without rem neigh))) * semL (without rem (vertices g')) g' y)%C.
Proof.
  intros neigh. induction neigh as [|n neigh IH]; intros g0 P g w a rem H GL Hw Tw ND HN HB PA IR RZ Rw.
  - exists g. rewrite app_nil_r. split; [reflexivity|]. split; auto. split; auto. intros y. cbn. rewrite sq2p_0. unfold wired, semL. rewrite <- sumv_scal. apply sumv_ext. intros x. cbn [cprod]. ring.
  - assert (NX : forall u, In u (vertices g0) -> vty g0 u <> XSP) by (intros u Hu; destruct (proj1 GL u Hu); congruence).
    inversion ND as [|? ? Nn ND']; subst. destruct (HN n (or_introl eq_refl)) as [Hn En]. cbn [foldM].
    assert (IN : forall ns, incl ns neigh -> incl ns (vertices g0)) by (intros ns I z Hz; apply HN; simpl; auto).
    assert (STEP : exists g1, copy_nbr w a g n = Ok g1 /\ cst g0 (P ++ [n]) g1 /\ gscalar g1 = gscalar g /\
      forall y, wired w (pbit a) (without rem (n :: neigh)) (without rem (vertices g)) g y =
        ((if mem n rem then C1 else sq2p (-1)) * wired w (pbit a) (without rem neigh) (without rem (vertices g1)) g1 y)%C).
    { destruct (proj1 GL n Hn) as [Tn|Tn].
      - assert (EH : edge_type g0 w n = Some HADAMARD) by (destruct (edge_type g0 w n) as [e|] eqn:E; [rewrite (proj2 GL _ _ _ E Tw Tn); auto|congruence]).
        assert (K := fun ns y => copy_nbr_Z g0 P g w a n rem ns y H NX Hw Hn Tn EH PA). cbv zeta in K.
        exists (add_to_phase n a g). destruct (K [] (fun _ => false)) as [K1 [K2 [_ [K4 _]]]]. split; auto. split; auto. split; auto. intros y.
        destruct (K (without rem neigh) y) as [_ [_ [_ [_ [K5 K6]]]]]. unfold without at 1. cbn [filter]. fold (without rem neigh). destruct (mem n rem) eqn:M; cbn [negb].
        + rewrite K5 by (apply mem_spec; auto). ring.
        + apply K6. apply mem_false; auto.
      - assert (Rn : ~ In n rem) by (intros X; rewrite RZ in Tn by auto; discriminate). destruct (edge_type g0 w n) as [e|] eqn:E; [|congruence].
        destruct (copy_nbr_B g0 P g w a n rem e H NX Hw Hn Tn (HB n (or_introl eq_refl) Tn) E PA IR Rw Rn) as [g1 [u [K1 [K2 [_ [K4 K5]]]]]].
        exists g1. split; auto. split; auto. split; auto. intros y. unfold without at 1. cbn [filter]. rewrite (proj2 (mem_false _ _) Rn). cbn [negb]. apply K5.
        apply IN. intros z Hz. apply in_without in Hz. tauto. }
    destruct STEP as [g1 [E1 [C' [S' V']]]]. rewrite E1. cbn [bind].
    destruct (IH g0 (P ++ [n]) g1 w a rem C' GL Hw Tw ND') as [g' [E2 [C2 [S2 V2]]]]; auto.
    + intros z Hz. apply HN. simpl; auto.
    + intros z Hz Tz X. apply in_app_iff in X. destruct X as [X|[<-|[]]]; [|contradiction]. revert X. apply HB; simpl; auto.
    + exists g'. split; auto. rewrite <- app_assoc in C2. split; auto. split; [congruence|]. intros y. rewrite V', V2. unfold without at 3. cbn [filter]. fold (without rem neigh).
      destruct (mem n rem); cbn [negb]; [ring|]. cbn [length]. rewrite Nat2Z.inj_succ. replace (- Z.succ (Z.of_nat (length (without rem neigh))))%Z with (-1 + - Z.of_nat (length (without rem neigh)))%Z by lia.
      rewrite sq2p_add. ring.
Qed.

(** ** One match *)
Definition cm_ok (g : graph) (m : cmatch) : Prop := let '(v, w, a, alpha, neigh) := m in
  In v (vertices g) /\ In w (vertices g) /\ v <> w /\ vty g v = ZSP /\ vty g w = ZSP /\ (forall u, edge_type g v u <> None <-> u = w) /\
  a = phase g v /\ is_pauli a = true /\ alpha = phase g w /\ NoDup neigh /\ forall n, In n neigh <-> edge_type g w n <> None /\ n <> v.
Lemma semL_scal : forall R g g' k y, (forall v, vty g' v = vty g v) -> (forall x, integL R g' x = integL R g x * k)%C -> semL R g' y = (k * semL R g y)%C.
Proof.
  intros R g g' k y T I. unfold semL, notB. rewrite (filter_ext (fun v => negb (isB g' v)) (fun v => negb (isB g v))) by (intros v; unfold isB; rewrite T; auto).
  rewrite <- sumv_scal. apply sumv_ext. intros x. rewrite I. ring.
Qed.
Lemma wired_scal : forall w a ns R g f k y, (forall x, integL R (on_scalar f g) x = integL R g x * k)%C -> wired w a ns R (on_scalar f g) y = (k * wired w a ns R g y)%C.
Proof. intros w a ns R g f k y I. unfold wired. change (notB (on_scalar f g) R) with (notB g R). rewrite <- sumv_scal. apply sumv_ext. intros x. rewrite I. change (fun n => ew (on_scalar f g) w n a (x n)) with (fun n => ew g w n a (x n)). ring. Qed.
Lemma without_without : forall A B L, without B (without A L) = without (A ++ B) L.
Proof.
  intros A B L. unfold without. induction L as [|u L IH]; auto. cbn [filter]. rewrite <- IH. assert (E : mem u (A ++ B) = mem u A || mem u B).
  { apply eq_true_iff_eq. rewrite orb_true_iff, !mem_spec, in_app_iff. tauto. }
  rewrite E. destruct (mem u A); cbn [negb orb filter]; auto. 
Qed.
Lemma copy_one_ok : forall g0 P g rem m, cst g0 P g -> glike g0 -> wfg g0 -> cm_ok g0 m ->
  let '(v, w, a, alpha, neigh) := m in
  ~ In v P -> ~ In v rem -> ~ In w rem -> (forall n, In n neigh -> vty g0 n = BOUNDARY -> ~ In n P) -> incl rem (vertices g0) -> (forall u, In u rem -> vty g0 u = ZSP) ->
  exists g' k, copy_one (g, rem) m = Ok (g', rem ++ [v; w]) /\ cst g0 (P ++ neigh) g' /\ k <> C0 /\
  (~ In w P -> (forall n, In n neigh -> ~ In n rem) -> k = C1) /\
  forall y, semL (without (rem ++ [v; w]) (vertices g')) g' y = (k * semL (without rem (vertices g)) g y)%C.
Proof.
  intros g0 P g rem [[[[v w] a] alpha] neigh] H GL W0 [Iv [Iw [D [Tv [Tw [Ev [Ea [PA [Eal [ND HN]]]]]]]]]] NvP Nv Nw HB IR RZ.
  assert (NX : forall u, In u (vertices g0) -> vty g0 u <> XSP) by (intros u Hu; destruct (proj1 GL u Hu); congruence).
  assert (W := cs_wf _ _ _ H). set (ab := pbit a).
  assert (Evw : edge_type g v w = Some HADAMARD).
  { rewrite (cs_old _ _ _ H) by auto. destruct (edge_type g0 v w) eqn:E; [rewrite (proj2 GL _ _ _ E); auto|]. exfalso. apply (proj2 (Ev w)); auto. }
  assert (NEWN : forall z u, In z (vertices g0) -> vty g0 z = ZSP -> ~ In u (vertices g0) -> edge_type g z u = None).
  { intros z u Hz Tz Nu. destruct (edge_type g z u) eqn:E; auto. exfalso. rewrite (wf_sym g W) in E. destruct (cs_ne _ _ _ H u z Nu) as [_ X]; congruence. }
  assert (PHv : phase g v = a) by (rewrite (cs_ph _ _ _ H); auto).
  set (g1 := on_scalar (s_add_power (- Z.of_nat (length neigh) + 1)%Z) g).
  set (g2 := if qeqb a 0%Qc then g1 else on_scalar (s_add_phase alpha) g1).
  assert (C2 : cst g0 P g2) by (unfold g2, g1; destruct (qeqb a 0%Qc); repeat apply cst_scalar; auto).
  assert (Rem : incl (rem ++ [v; w]) (vertices g0)) by (intros u Hu; apply in_app_iff in Hu; destruct Hu as [|[<-|[<-|[]]]]; auto).
  destruct (copy_nbrs neigh g0 P g2 w a (rem ++ [v; w]) C2 GL Iw Tw ND) as [g' [E [C' [S' V']]]]; auto.
  - intros n Hn. apply HN in Hn. split; [|tauto]. apply (edge_type_in_l g0 n w). rewrite (wf_sym g0 W0). tauto.
  - intros u Hu. apply in_app_iff in Hu. destruct Hu as [|[<-|[<-|[]]]]; auto.
  - apply in_app_iff. simpl; auto.
  - set (ns := without (rem ++ [v; w]) neigh) in *.
    set (k := (sq2p (Z.of_nat (length ns)) * (sq2p (- Z.of_nat (length neigh) + 1) * ephase alpha ab) * (sq2p (-1) * ephase (- phase g w)%Qc ab))%C).
    exists g', k. split; [unfold copy_one; fold g1; fold g2; rewrite E; reflexivity|]. split; auto. split; [|split].
    + unfold k. repeat apply Cmult_neq0; try apply sq2p_neq0; apply ephase_neq0.
    + intros NP NR. assert (Ens : ns = neigh).
      { unfold ns, without. apply filter_true. intros n Hn. apply negb_true_iff, mem_false. rewrite in_app_iff. simpl. apply HN in Hn as Hn'.
        intros [X|[X|[X|[]]]]; [revert X; apply NR; auto|subst; tauto|]. subst n. apply (proj1 Hn'). rewrite <- (cs_old _ _ _ H) by auto. apply (cs_loop _ _ _ H). }
      unfold k. rewrite Ens, (cs_ph _ _ _ H w) by auto. rewrite <- Eal.
      transitivity ((sq2p (Z.of_nat (length neigh)) * sq2p (- Z.of_nat (length neigh) + 1) * sq2p (-1)) * (ephase alpha ab * ephase (- alpha)%Qc ab))%C; [ring|].
      rewrite <- !sq2p_add, <- ephase_mult. replace (alpha + - alpha)%Qc with 0%Qc by ring. rewrite ephase_0.
      replace (Z.of_nat (length neigh) + (- Z.of_nat (length neigh) + 1) + -1)%Z with 0%Z by lia. rewrite sq2p_0. ring.
    + intros y. set (R := without rem (vertices g)). set (R0 := without (rem ++ [v; w]) (vertices g)).
      assert (IR0 : forall u, In u R0 <-> In u (vertices g) /\ ~ In u rem /\ u <> v /\ u <> w) by (intros u; unfold R0; rewrite in_without, in_app_iff; simpl; intuition).
      assert (X1 : semL R g y = (sq2p 1 * ephase (phase g w) ab * wired w ab R0 R0 g y)%C).
      { unfold R0. rewrite <- without_without. fold R. unfold ab. rewrite <- PHv. apply copy_out; auto; try (rewrite (cs_ty _ _ _ H); auto); try (apply in_without; split; auto; apply (cs_vs _ _ _ H); auto).
        - apply NoDup_filter, wf_nd; auto.
        - intros u Hu Du. destruct (in_dec Nat.eq_dec u (vertices g0)) as [I|I]; [|apply NEWN; auto]. rewrite (cs_old _ _ _ H) by auto.
          destruct (edge_type g0 v u) eqn:X; auto. exfalso. apply Du, Ev. congruence.
        - rewrite PHv; auto. }
      assert (X2 : wired w ab R0 R0 g y = wired w ab ns R0 g y).
      { unfold wired. apply sumv_ext. intros x. f_equal.
        assert (NDR : NoDup R0) by (apply NoDup_filter, wf_nd; auto).
        assert (Ins : forall n, In n ns -> In n R0). { intros n Hn. apply in_without in Hn. destruct Hn as [Hn1 Hn2]. apply HN in Hn1. unfold R0. rewrite in_without. split; auto.
          apply (cs_vs _ _ _ H). apply (edge_type_in_l g0 n w). rewrite (wf_sym g0 W0). tauto. }
        assert (PM : Permutation R0 (ns ++ without ns R0)).
        { apply nodup_same_perm; auto.
          - apply RuleLemmas.nodup_app; [apply NoDup_filter; auto|apply NoDup_filter; auto|]. intros u Hu X. apply in_without in X. tauto.
          - intros u. rewrite in_app_iff, in_without. destruct (in_dec Nat.eq_dec u ns); [split; auto|tauto]. }
        rewrite (cprod_perm _ _ _ _ PM), cprod_app. rewrite (cprod_1 _ _ (without ns R0)); [ring|].
        intros u Hu. apply in_without in Hu. destruct Hu as [Hu1 Hu2]. apply IR0 in Hu1 as Hu3. unfold ew. replace (edge_type g w u) with (@None etype); auto. symmetry.
        destruct (in_dec Nat.eq_dec u (vertices g0)) as [I|I]; [|apply NEWN; auto]. rewrite (cs_old _ _ _ H) by auto.
        destruct (edge_type g0 w u) eqn:X; auto. exfalso. apply Hu2. unfold ns. rewrite in_without. split; [apply HN; split; [congruence|tauto]|]. rewrite in_app_iff. simpl. intuition. }
      assert (X3 : wired w ab ns R0 g2 y = ((sq2p (- Z.of_nat (length neigh) + 1) * ephase alpha ab) * wired w ab ns R0 g y)%C).
      { unfold g2. unfold ab at 2. unfold pbit. destruct (qeqb a 0%Qc); cbn [negb].
        - unfold g1. rewrite (wired_scal _ _ _ _ _ _ _ y (fun x => integL_power R0 _ g x)). cbn [ephase]. ring.
        - rewrite (wired_scal _ _ _ _ _ _ _ y (fun x => integL_sphase R0 alpha g1 x)). unfold g1. rewrite (wired_scal _ _ _ _ _ _ _ y (fun x => integL_power R0 _ g x)). cbn [ephase]. ring. }
      specialize (V' y). change (pbit a) with ab in V'. assert (VG : vertices g2 = vertices g) by (unfold g2, g1; destruct (qeqb a 0%Qc); reflexivity). rewrite VG in V'. fold R0 in V'. rewrite X3 in V'. rewrite X1, X2.
      set (w0 := wired w ab ns R0 g y) in *. set (s := semL (without (rem ++ [v; w]) (vertices g')) g' y) in *. unfold k.
      assert (Q1 : (sq2p (Z.of_nat (length ns)) * sq2p (- Z.of_nat (length ns)) = C1)%C) by apply sq2p_opp_r.
      assert (Q2 : (sq2p (-1) * sq2p 1 = C1)%C) by (rewrite <- sq2p_add; apply sq2p_0).
      assert (Q3 : (ephase (- phase g w)%Qc ab * ephase (phase g w) ab = C1)%C). { rewrite <- ephase_mult. replace (- phase g w + phase g w)%Qc with 0%Qc by ring. apply ephase_0. }
      transitivity (sq2p (Z.of_nat (length ns)) * (sq2p (- Z.of_nat (length ns)) * s))%C; [transitivity ((sq2p (Z.of_nat (length ns)) * sq2p (- Z.of_nat (length ns))) * s)%C; [rewrite Q1; ring|ring]|].
      rewrite <- V'. transitivity (sq2p (Z.of_nat (length ns)) * (sq2p (- Z.of_nat (length neigh) + 1) * ephase alpha ab * w0) * ((sq2p (-1) * sq2p 1) * (ephase (- phase g w)%Qc ab * ephase (phase g w) ab)))%C; [rewrite Q2, Q3; ring|ring].
Qed.
