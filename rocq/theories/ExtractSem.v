(** Local steps of circuit extraction: what splitting a gate off an output, joining
    and splitting wires and reading a spider at an output do to the value of a
    diagram. *)
From Coq Require Import Reals ZArith QArith Qcanon List Bool Arith Lia Permutation FunctionalExtensionality.
From Verif Require Import CNum Base ScalarModel ScalarProofs GraphModel GraphSem SumLemmas GraphProofs GraphOps RulesModel RuleLemmas
  SpiderProofs IsoProofs IdProofs LcompProofs PivotProofs PivotMatch GrowProofs StoreProofs InvProofs BfixProofs TotalProofs GrowTotal
  GateModel CircSpec GateProofs AmpProofs CircGraphModel CircGraphProofs CircGraphFacts VerifyProofs GraphAlgModel GraphAlgProofs GraphAlgFacts
  ComposeProofs ApplyProofs.
Import ListNotations.
Open Scope C_scope.

(** ** One edge *)
Lemma edge_factor : forall g g' L s t x, wfg g -> wfg g' -> NoDup L -> In s L -> In t L -> s <> t -> gscalar g' = gscalar g ->
  (forall v, In v L -> vty g' v = vty g v /\ phase g' v = phase g v) ->
  (forall u v, In u L -> In v L -> pair_hit s t u v = false -> edge_type g' u v = edge_type g u v) ->
  exists R, integL L g x = R * ew g s t (x s) (x t) /\ integL L g' x = R * ew g' s t (x s) (x t).
Proof.
  intros g g' L s t x W W' N Is It D S HV HE.
  destruct (pprod_change2 (fun u v => if in_dec Nat.eq_dec u L then if in_dec Nat.eq_dec v L then ew g u v (x u) (x v) else C1 else C1)
              (fun u v => if in_dec Nat.eq_dec u L then if in_dec Nat.eq_dec v L then ew g' u v (x u) (x v) else C1 else C1) L s t N Is It D) as [R [E1 E2]].
  - intros u v. destruct (in_dec Nat.eq_dec u L), (in_dec Nat.eq_dec v L); auto. apply ew_sym; auto.
  - intros u v. destruct (in_dec Nat.eq_dec u L), (in_dec Nat.eq_dec v L); auto. apply ew_sym; auto.
  - intros u v Hu Hv _ A B. destruct (in_dec Nat.eq_dec u L), (in_dec Nat.eq_dec v L); auto.
    unfold ew, isX. rewrite (proj1 (HV u Hu)), (proj1 (HV v Hv)), HE by (auto; apply pair_hit_false; auto). auto.
  - cbv beta in *. destruct (in_dec Nat.eq_dec s L); [|contradiction]. destruct (in_dec Nat.eq_dec t L); [|contradiction].
    exists (to_number (gscalar g) * cprod (fun v => pw g v (x v)) L * R). unfold integL. split.
    + rewrite (pprod_ext L (fun u v => ew g u v (x u) (x v)) (fun u v => if in_dec Nat.eq_dec u L then if in_dec Nat.eq_dec v L then ew g u v (x u) (x v) else C1 else C1)).
      * rewrite E1. ring.
      * intros u v Hu Hv. destruct (in_dec Nat.eq_dec u L), (in_dec Nat.eq_dec v L); tauto.
    + rewrite (pprod_ext L (fun u v => ew g' u v (x u) (x v)) (fun u v => if in_dec Nat.eq_dec u L then if in_dec Nat.eq_dec v L then ew g' u v (x u) (x v) else C1 else C1)).
      * rewrite E2, S. rewrite (cprod_ext _ (fun v => pw g' v (x v)) (fun v => pw g v (x v))); [ring|].
        intros v Hv. unfold pw, isB. destruct (HV v Hv) as [-> ->]. auto.
      * intros u v Hu Hv. destruct (in_dec Nat.eq_dec u L), (in_dec Nat.eq_dec v L); tauto.
Qed.
Lemma ew_plain : forall g u v a b, isX g u = false -> isX g v = false -> ew g u v a b = wt (edge_type g u v) a b.
Proof. intros g u v a b X Y. unfold ew. rewrite X, Y. destruct (edge_type g u v); auto. Qed.
Lemma wt_sym : forall e a b, wt e a b = wt e b a.
Proof. intros [[]|] [] []; auto. Qed.
Lemma int_simple : forall g v o x, wfg g -> edge_type g v o = Some SIMPLE -> v <> o -> isX g v = false -> isX g o = false ->
  x v <> x o -> integL (vertices g) g x = C0.
Proof.
  intros g v o x W E D Xv Xo H.
  destruct (edge_factor g g (vertices g) v o x W W (wf_nd g W)) as [R [E1 _]]; auto.
  - eapply edge_in_l; eauto. - rewrite wf_sym in E by auto. eapply edge_in_l; eauto.
  - rewrite E1, ew_plain, E by auto. cbn [wt]. unfold dlt. destruct (x v), (x o); simpl; try congruence; ring.
Qed.

(** ** A wire of a boundary vertex *)
Lemma tip_integ : forall g v o x, wfg g -> noloop g -> bdeg g -> In o (vertices g) -> vty g o = BOUNDARY -> edge_type g v o <> None ->
  integL (vertices g) g x = to_number (gscalar g) * part g (without [o] (vertices g)) x * ew g v o (x v) (x o).
Proof.
  intros g v o x W NL D Io To E. rewrite integL_part, (part_cut g [o] x W D).
  - destruct (bdeg_nb g o W D Io To) as [_ HB]. rewrite wf_sym in E by auto. apply HB in E. subst v. simpl. ring.
  - repeat constructor; simpl; tauto.
  - intros u [<-|[]]. auto.
  - intros u w [<-|[]] [<-|[]]. apply NL.
Qed.
Lemma wt_simple_split : forall e a c, wt e a c = wt e c false * dlt a false + wt e c true * dlt a true.
Proof. intros e a c. rewrite (wt_sym e a c). unfold dlt. destruct a; simpl; ring. Qed.
Lemma notin_internal : forall g o, vty g o = BOUNDARY -> ~ In o (internal g).
Proof. intros g o T H. unfold internal in H. apply filter_In in H. destruct H as [_ H]. unfold isB in H. rewrite T in H. discriminate. Qed.

(** changing the type of the wire at a boundary vertex into a plain one *)
Record retip (v o : nat) (g g' : graph) : Prop := mkretip {
  rt_wf : wfg g'; rt_nl : noloop g'; rt_deg : bdeg g'; rt_v : vertices g' = vertices g; rt_s : gscalar g' = gscalar g;
  rt_ty : forall u, vty g' u = vty g u; rt_ph : forall u, phase g' u = phase g u;
  rt_e : forall u w, edge_type g' u w = if pair_hit v o u w then Some SIMPLE else edge_type g u w }.
Lemma tip_split : forall g g' v o e b, wfg g -> noloop g -> bdeg g -> In o (vertices g) -> vty g o = BOUNDARY ->
  edge_type g v o = Some e -> isX g v = false -> retip v o g g' ->
  sem g b = wt (Some e) (b o) false * sem g' (upd b o false) + wt (Some e) (b o) true * sem g' (upd b o true).
Proof.
  intros g g' v o e b W NL D Io To E Xv R. destruct R as [W' NL' D' V S T P HE].
  assert (Dvo : v <> o) by (intros ->; rewrite NL in E; discriminate).
  assert (NI := notin_internal g o To). assert (Xo : isX g o = false) by (unfold isX; rewrite To; auto).
  assert (II : internal g' = internal g) by (unfold internal; rewrite V; apply filter_ext; intros; unfold isB; rewrite T; auto).
  set (K := fun x => to_number (gscalar g) * part g (without [o] (vertices g)) x).
  assert (K' : forall x, to_number (gscalar g') * part g' (without [o] (vertices g')) x = K x).
  { intros x. unfold K. rewrite S, V. f_equal. apply part_ext; [auto|]. intros u w Hu Hw. rewrite HE.
    replace (pair_hit v o u w) with false; auto. symmetry. apply in_without in Hu, Hw. apply pair_hit_false; intros X; injection X as -> ->; [apply (proj2 Hw)|apply (proj2 Hu)]; simpl; auto. }
  assert (A : forall c, sem g' (upd b o c) = sumv (internal g) (fun x => K x * dlt (x v) c) b).
  { intros c. unfold sem. rewrite II, sumv_upd_in by auto. apply sumv_ext. intros x.
    rewrite (tip_integ g' v o) by (rewrite ?V, ?T, ?HE, ?pair_hit_st; auto; discriminate).
    rewrite K', ew_plain by (unfold isX in *; rewrite ?T; auto). rewrite HE, pair_hit_st, upd_same, (upd_other x o c v) by auto. cbn [wt]. f_equal.
    unfold K. f_equal. apply part_agree. intros u Hu. apply upd_other. intros ->. apply in_without in Hu. apply (proj2 Hu). simpl; auto. }
  rewrite !A, <- !sumv_scal, <- sumv_plus. unfold sem. apply sumv_ext_on. intros y Hy.
  rewrite (tip_integ g v o) by (auto; congruence). rewrite ew_plain, E, (Hy o) by auto. fold (K y).
  rewrite (wt_simple_split (Some e)). ring.
Qed.

(** ** Reading spiders at the outputs *)
Lemma diag_step : forall g g' v1 o1 v2 o2 f b, wfg g' -> vertices g' = vertices g -> (forall u, vty g' u = vty g u) ->
  vty g o1 = BOUNDARY -> vty g o2 = BOUNDARY -> isX g v1 = false -> isX g v2 = false -> v1 <> o1 -> v2 <> o2 ->
  edge_type g' v1 o1 = Some SIMPLE -> edge_type g' v2 o2 = Some SIMPLE ->
  (forall x, integL (vertices g) g x = f (x v1) (x v2) * integL (vertices g') g' x) ->
  sem g b = f (b o1) (b o2) * sem g' b.
Proof.
  intros g g' v1 o1 v2 o2 f b W V T T1 T2 X1 X2 D1 D2 E1 E2 H. unfold sem.
  assert (II : internal g' = internal g) by (unfold internal; rewrite V; apply filter_ext; intros; unfold isB; rewrite T; auto).
  rewrite II, <- sumv_scal. apply sumv_ext_on. intros y Hy. rewrite H.
  rewrite <- (Hy o1), <- (Hy o2) by (apply notin_internal; auto).
  destruct (bool_dec (y v1) (y o1)) as [A|A]; [|rewrite (int_simple g' v1 o1) by (unfold isX in *; rewrite ?T, ?T1; auto); ring].
  destruct (bool_dec (y v2) (y o2)) as [B|B]; [|rewrite (int_simple g' v2 o2) by (unfold isX in *; rewrite ?T, ?T2; auto); ring].
  rewrite A, B. auto.
Qed.

(** ** A phase-free spider of degree two *)
Definition join_e (e1 e2 : etype) : etype := if etype_eqb e1 e2 then SIMPLE else HADAMARD.
Lemma wt_join0 : forall e1 e2 a c, wt (Some e1) false a * wt (Some e2) false c + wt (Some e1) true a * wt (Some e2) true c = wt (Some (join_e e1 e2)) a c.
Proof.
  intros. assert (H := wt_join e1 e2 false false a c). cbn [tog xorb] in H. rewrite <- (wt_sym (Some e1) a false), <- (wt_sym (Some e1) a true). exact H.
Qed.
Lemma sub_wire : forall g g2 w a b e1 e2 y, wfg g -> wfg g2 -> noloop g2 -> In w (vertices g2) ->
  vertices g = filter (fun u => negb (mem u [w])) (vertices g2) -> gscalar g = gscalar g2 ->
  (forall u, In u (vertices g) -> vty g u = vty g2 u /\ phase g u = phase g2 u) -> vty g2 w = ZSP -> phase g2 w = 0%Qc ->
  a <> b -> isX g2 a = false -> isX g2 b = false ->
  edge_type g2 w a = Some e1 -> edge_type g2 w b = Some e2 -> (forall u, u <> a -> u <> b -> edge_type g2 w u = None) ->
  edge_type g2 a b = None -> edge_type g a b = Some (join_e e1 e2) ->
  (forall u v, In u (vertices g) -> In v (vertices g) -> pair_hit a b u v = false -> edge_type g u v = edge_type g2 u v) ->
  sem g y = sem g2 y.
Proof.
  intros g g2 w a b e1 e2 y W W2 NL Iw HV HS HP Tw Pw Dab Xa Xb E1 E2 E0 N2 E HE.
  assert (Da : a <> w) by (intros ->; rewrite NL in E1; discriminate). assert (Db : b <> w) by (intros ->; rewrite NL in E2; discriminate).
  assert (HVi : forall u, In u (vertices g) <-> In u (vertices g2) /\ u <> w).
  { intros u. rewrite HV, filter_In, negb_true_iff, mem_false. simpl. intuition congruence. }
  assert (Ia : In a (vertices g)) by (apply HVi; split; auto; rewrite wf_sym in E1 by auto; eapply edge_in_l; eauto).
  assert (Ib : In b (vertices g)) by (apply HVi; split; auto; rewrite wf_sym in E2 by auto; eapply edge_in_l; eauto).
  assert (NV := wf_nd g W).
  apply (sem_sum_out g2 g [w] W2); auto.
  - repeat constructor; simpl; tauto.
  - intros v [<-|[]]. split; auto. unfold isB. rewrite Tw. auto.
  - intros u Hu. unfold isB. rewrite (proj1 (HP u Hu)). auto.
  - intros x. assert (P : Permutation (vertices g2) ([w] ++ vertices g)).
    { apply nodup_same_perm; [apply W2|constructor; auto; intros X; apply HVi in X; tauto|]. intros u. simpl. rewrite HVi.
      destruct (Nat.eq_dec u w) as [->|]; intuition congruence. }
    destruct (edge_factor g2 g (vertices g) a b x W2 W NV Ia Ib Dab HS) as [R [F2 F]].
    { intros v Hv. destruct (HP v Hv). auto. }
    { intros u v Hu Hv X. apply HE; auto. }
    assert (Q : forall c, integL (vertices g2) g2 (upd x w c) = R * (wt (Some e1) c (x a) * wt (Some e2) c (x b))).
    { intros c. rewrite (integL_perm g2 _ _ _ W2 P), integL_app, integL_indep, F2 by (intros X; apply HVi in X; tauto).
      unfold ew at 1. rewrite N2. cbn [option_map]. change (wt None (x a) (x b)) with C1. cbn [cprod pprod].
      rewrite (cprod_nbrs g2 w (vertices g) [a; b]); auto.
      2:{ repeat constructor; simpl; intuition congruence. }
      2:{ intros v; split; [intros [<-|[<-|[]]]; split; auto; congruence|].
          intros [_ X]; simpl; destruct (Nat.eq_dec v a); auto; destruct (Nat.eq_dec v b); auto; rewrite E0 in X by auto; congruence. }
      2:{ intros v X. unfold ew. rewrite X. auto. }
      cbn [cprod]. unfold pw, isB. rewrite Tw, Pw. cbn [vtype_eqb]. rewrite upd_same, !upd_other by auto.
      assert (Xw : isX g2 w = false) by (unfold isX; rewrite Tw; auto).
      rewrite !ew_plain, E1, E2 by auto. unfold ephase. destruct c; rewrite ?cexp_0; ring. }
    cbn [sumv]. rewrite !Q, F. unfold ew. rewrite E.
    assert (XX : isX g a = false /\ isX g b = false) by (unfold isX in *; rewrite (proj1 (HP a Ia)), (proj1 (HP b Ib)); auto).
    destruct XX as [-> ->]. cbn [xorb option_map tog]. rewrite <- wt_join0. ring.
Qed.
