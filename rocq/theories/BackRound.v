(** The diagrams made from circuits by circuit_to_graph are drawn as graph_to_circuit expects. *)
From Coq Require Import Reals ZArith QArith Qcanon List Bool Arith Lia Permutation Sorted FunctionalExtensionality.
From Verif Require Import CNum Base ScalarModel ScalarProofs GraphModel GraphSem SumLemmas GraphProofs GrowProofs GraphOps RulesModel RuleLemmas InvProofs BfixProofs TotalProofs
  GateModel CircSpec GateProofs GateDecomp GateAdj GateMask AmpProofs CircGraphModel CircGraphFacts GraphAlgProofs SuppProofs TensorModel TensorPos GflowModel GflowProofs VerifyProofs BackModel CircGraphProofs CircTensor BackSem BackProofs GraphModel.
Import ListNotations.
Open Scope nat_scope.

Lemma crd_lt : forall a b, (crd a < crd b)%Qc <-> a < b.
Proof.
  intros a b. unfold crd, Qcz, Qclt. change ((Qred (inject_Z (Z.of_nat a)) < Qred (inject_Z (Z.of_nat b)))%Q <-> a < b). rewrite !Qred_correct. unfold Qlt, inject_Z. simpl. lia.
Qed.
Lemma Qclt_irr : forall a : Qc, ~ (a < a)%Qc.
Proof. intros a H. eapply Qclt_not_eq; eauto. Qed.
Definition vert_ok (g : graph) (u v : nat) (et : etype) : Prop :=
  (vty g u = ZSP /\ vty g v = ZSP /\ et = HADAMARD) \/ (vty g u = ZSP /\ vty g v = XSP /\ et = SIMPLE) \/ (vty g u = XSP /\ vty g v = ZSP /\ et = SIMPLE).
(** the diagram under construction; [pv l] is the last vertex on qubit l *)
Record lay (n : nat) (g : graph) (pv : nat -> nat) : Prop := mklay {
  y_w : wfg g;
  y_v : vertices g = seq 0 (gvindex g);
  y_n : n <= gvindex g;
  y_at : forall v, v < gvindex g -> exists q r, q < n /\ dget v (gqindex g) = Some (crd q) /\ dget v (grindex g) = Some (crd r) /\ (v < n -> q = v /\ r = 0) /\ (n <= v -> 1 <= r);
  y_e : forall u v et, edge_type g u v = Some et -> row g u <> row g v \/ vert_ok g u v et;
  y_p : forall v, n <= v -> v < gvindex g -> exists u, edge_type g u v <> None /\ (row g u < row g v)%Qc /\ dget u (gqindex g) = dget v (gqindex g) /\
        forall w, edge_type g w v <> None -> (row g w < row g v)%Qc -> w = u;
  y_o : forall u v w, edge_type g u v <> None -> edge_type g u w <> None -> (row g u < row g v)%Qc -> (row g u < row g w)%Qc -> v = w;
  y_m : forall l, l < n -> pv l < gvindex g /\ dget (pv l) (gqindex g) = Some (crd l) /\ forall w, edge_type g (pv l) w <> None -> ~ (row g (pv l) < row g w)%Qc }.

Lemma add_vertex_pos : forall t q r p g g' v, add_vertex t q r (Some p) g = (g', v) ->
  forall u, dget u (gqindex g') = (if Nat.eqb u v then Some q else dget u (gqindex g)) /\ dget u (grindex g') = (if Nat.eqb u v then Some r else dget u (grindex g)).
Proof.
  intros t q r p g g' v H u. unfold add_vertex in H. cbn [add_vertices fst seq fold_left] in H. injection H as H Hv.
  assert (RI : grindex g' = dset (gvindex g) r (grindex (fst (add_vertices 1 g)))) by (subst g'; destruct (qeqb p 0%Qc); reflexivity).
  assert (QI : gqindex g' = dset (gvindex g) q (gqindex (fst (add_vertices 1 g)))) by (subst g'; destruct (qeqb p 0%Qc); reflexivity).
  rewrite RI, QI, !dget_dset, Hv. split; destruct (Nat.eqb u v); reflexivity.
Qed.
Lemma fresh_edge : forall g u v, wfg g -> vertices g = seq 0 (gvindex g) -> gvindex g <= v -> edge_type g u v = None /\ edge_type g v u = None.
Proof.
  intros g u v W V L. assert (X : edge_type g u v = None). { destruct (edge_type g u v) eqn:E; auto. apply edge_in_r in E; auto. rewrite V in E. apply in_seq in E. lia. }
  split; auto. rewrite (wf_sym g W). auto.
Qed.
Lemma lay_node : forall n g pv l t r p et g1 v g2, lay n g pv -> l < n -> 1 <= r -> (row g (pv l) < crd r)%Qc ->
  add_vertex t (crd l) (crd r) (Some p) g = (g1, v) -> add_edge (pv l) v et g1 = Ok g2 ->
  lay n g2 (eset pv l v) /\ v = gvindex g /\ gvindex g2 = S v /\ row g2 v = crd r /\ (forall u, u <> v -> row g2 u = row g u) /\ vty g2 v = t /\ (forall u, u <> v -> vty g2 u = vty g u) /\
  (forall w, edge_type g2 v w <> None -> w = pv l).
Proof.
  intros n g pv l t r p et g1 v g2 Y Hl Hr RL A E. assert (W := y_w n g pv Y). assert (V := y_v n g pv Y).
  destruct (add_vertex_spec _ _ _ _ _ _ _ W A) as (Ev & W1 & V1 & ET1 & _ & TY1 & _). destruct (add_vertex_row _ _ _ _ _ _ _ A) as [GI1 RW1]. assert (PO := add_vertex_pos _ _ _ _ _ _ _ A).
  destruct (y_m n g pv Y l Hl) as [PL [PQ PN]]. assert (D : pv l <> v) by lia.
  assert (FR : forall u, edge_type g u v = None /\ edge_type g v u = None) by (intros u; apply fresh_edge; auto; lia).
  assert (I1 : In (pv l) (vertices g1)) by (rewrite V1, V, in_app_iff, in_seq; left; lia). assert (I2 : In v (vertices g1)) by (rewrite V1, in_app_iff; right; left; auto).
  destruct (add_edge_fresh (pv l) v et g1 W1 D I1 I2) as (g2' & E' & W2 & F & _ & _ & ET2); [rewrite ET1; apply FR|]. rewrite E' in E. injection E as ->.
  assert (ET : forall u w, edge_type g2 u w = if pair_hit (pv l) v u w then Some et else edge_type g u w) by (intros; rewrite ET2, ET1; auto).
  destruct F as (FV & FT & _ & _ & FI & FQ & FR').
  assert (RW : forall u, row g2 u = if Nat.eqb u v then crd r else row g u) by (intros u; rewrite <- RW1; unfold row; rewrite FR'; auto).
  assert (TY : forall u, vty g2 u = if Nat.eqb u v then t else vty g u) by (intros u; rewrite <- TY1; unfold vty; rewrite FT; auto).
  assert (RO : forall u, u <> v -> row g2 u = row g u) by (intros u N; rewrite RW; apply Nat.eqb_neq in N; rewrite N; auto).
  assert (TO : forall u, u <> v -> vty g2 u = vty g u) by (intros u N; rewrite TY; apply Nat.eqb_neq in N; rewrite N; auto).
  assert (RV : row g2 v = crd r) by (rewrite RW, Nat.eqb_refl; auto). assert (TV : vty g2 v = t) by (rewrite TY, Nat.eqb_refl; auto).
  assert (QO : forall u, u <> v -> dget u (gqindex g2) = dget u (gqindex g)) by (intros u N; rewrite FQ, (proj1 (PO u)); apply Nat.eqb_neq in N; rewrite N; auto).
  assert (QV : dget v (gqindex g2) = Some (crd l)) by (rewrite FQ, (proj1 (PO v)), Nat.eqb_refl; auto).
  assert (EC : forall u w, edge_type g2 u w <> None -> (u = pv l /\ w = v) \/ (u = v /\ w = pv l) \/ (u <> v /\ w <> v /\ edge_type g u w <> None /\ edge_type g2 u w = edge_type g u w)).
  { intros u w H. rewrite ET in *. destruct (pair_hit (pv l) v u w) eqn:PH; [apply pair_hit_iff in PH; tauto|]. right; right. assert (u <> v) by (intros ->; apply H, FR). assert (w <> v) by (intros ->; apply H, FR). auto. }
  assert (EP : edge_type g2 (pv l) v = Some et) by (rewrite ET; replace (pair_hit (pv l) v (pv l) v) with true; auto; symmetry; apply pair_hit_iff; auto).
  assert (RP : row g2 (pv l) = row g (pv l)) by (apply RO; auto).
  assert (VV : forall w, edge_type g2 v w <> None -> w = pv l).
  { intros w H. destruct (EC v w H) as [[X _]|[[_ X]|[X _]]]; auto; congruence. }
  split; [|split; [auto|split; [lia|repeat split; auto]]].
  constructor; auto.
  - rewrite FV, V1, V. rewrite FI, GI1, seq_S, Ev. reflexivity.
  - rewrite FI. assert (X := y_n n g pv Y). lia.
  - intros u Hu. destruct (Nat.eq_dec u v) as [->|N].
    + exists l, r. split; auto. split; auto. split; [rewrite FR', (proj2 (PO v)), Nat.eqb_refl; auto|]. assert (X := y_n n g pv Y). split; [lia|auto].
    + rewrite (QO u N). rewrite FR', (proj2 (PO u)), (proj2 (Nat.eqb_neq u v) N). apply (y_at n g pv Y). lia.
  - intros u w e H. assert (H' : edge_type g2 u w <> None) by congruence. destruct (EC u w H') as [[-> ->]|[[-> ->]|[N1 [N2 [N3 N4]]]]].
    + left. rewrite RP, RV. apply Qclt_not_eq; auto.
    + left. rewrite RP, RV. intros X. symmetry in X. revert X. apply Qclt_not_eq; auto.
    + rewrite (RO u N1), (RO w N2). rewrite N4 in H. unfold vert_ok. rewrite (TO u N1), (TO w N2). apply (y_e n g pv Y u w e H).
  - intros u L1 L2. destruct (Nat.eq_dec u v) as [->|N].
    + exists (pv l). split; [congruence|]. split; [rewrite RP, RV; auto|]. split; [rewrite QV, QO; auto|]. intros w H _. apply VV. rewrite (wf_sym g2 W2). auto.
    + destruct (y_p n g pv Y u L1) as (x & X1 & X2 & X3 & X4); [lia|]. assert (Nx : x <> v) by (intros ->; apply X1, FR). exists x.
      assert (EX : edge_type g2 x u <> None). { rewrite ET. destruct (pair_hit _ _ _ _); [discriminate|auto]. }
      split; auto. split; [rewrite !RO; auto|]. split; [rewrite !QO; auto|]. intros w H R. destruct (EC w u H) as [[_ X]|[[-> ->]|[N1 [_ [N3 _]]]]]; [congruence| |].
      * exfalso. rewrite RV, RP in R. apply (Qclt_not_le _ _ R). apply Qclt_le_weak; auto.
      * apply X4; auto. rewrite (RO w N1), (RO u N) in R. auto.
  - intros u x w H1 H2 R1 R2. destruct (EC u x H1) as [[-> ->]|[[-> ->]|[N1 [N2 [N3 _]]]]].
    + destruct (EC _ w H2) as [[_ ->]|[[X _]|[M1 [M2 [M3 _]]]]]; [auto|congruence|]. exfalso. rewrite RP, (RO w M2) in R2. apply (PN w); auto.
    + exfalso. rewrite RV, RP in R1. apply (Qclt_not_le _ _ R1). apply Qclt_le_weak; auto.
    + destruct (EC u w H2) as [[-> ->]|[[X _]|[M1 [M2 [M3 _]]]]]; [|congruence|].
      * exfalso. rewrite RP, (RO x N2) in R1. apply (PN x); auto.
      * rewrite (RO u N1), (RO x N2) in R1. rewrite (RO u N1), (RO w M2) in R2. apply (y_o n g pv Y u x w); auto.
  - intros k Hk. unfold eset. destruct (Nat.eqb_spec k l) as [->|Nk].
    + split; [lia|]. split; auto. intros w H. rewrite (VV w H), RV, RP. intros X. apply (Qclt_not_le _ _ X). apply Qclt_le_weak; auto.
    + destruct (y_m n g pv Y k Hk) as [K1 [K2 K3]]. assert (Nk' : pv k <> v) by lia. split; [lia|]. split; [rewrite QO; auto|]. intros w H.
      assert (Npl : pv k <> pv l). { intros X. rewrite X, PQ in K2. apply some_crd in K2. auto. }
      destruct (EC _ w H) as [[X _]|[[X _]|[M1 [M2 [M3 _]]]]]; [congruence|congruence|]. rewrite (RO _ M1), (RO w M2). apply K3; auto.
Qed.
Lemma lay_vert : forall n g pv u v et g', lay n g pv -> u <> v -> u < gvindex g -> v < gvindex g -> row g u = row g v -> edge_type g u v = None -> vert_ok g u v et ->
  add_edge u v et g = Ok g' -> lay n g' pv /\ gvindex g' = gvindex g /\ forall w, row g' w = row g w.
Proof.
  intros n g pv u v et g' Y D Lu Lv RE EN VO E. assert (W := y_w n g pv Y). assert (V := y_v n g pv Y).
  destruct (add_edge_fresh u v et g W D) as (g2' & E' & W2 & F & _ & _ & ET); [rewrite V; apply in_seq; lia|rewrite V; apply in_seq; lia|auto|]. rewrite E' in E. injection E as ->.
  destruct F as (FV & FT & _ & _ & FI & FQ & FR'). assert (RW : forall w, row g' w = row g w) by (intros; unfold row; rewrite FR'; auto). assert (TY : forall w, vty g' w = vty g w) by (intros; unfold vty; rewrite FT; auto).
  assert (EC : forall a b, edge_type g' a b <> None -> row g a = row g b \/ (edge_type g a b <> None)).
  { intros a b H. rewrite ET in H. destruct (pair_hit u v a b) eqn:PH; auto. apply pair_hit_iff in PH. destruct PH as [[-> ->]|[-> ->]]; auto. }
  assert (EL : forall a b, edge_type g' a b <> None -> (row g a < row g b)%Qc -> edge_type g a b <> None). { intros a b H R. destruct (EC a b H) as [X|X]; auto. rewrite X in R. destruct (Qclt_irr _ R). }
  assert (ER : forall a b, edge_type g a b <> None -> edge_type g' a b <> None) by (intros a b H; rewrite ET; destruct (pair_hit _ _ _ _); [discriminate|auto]).
  split; [|auto]. constructor; auto.
  - rewrite FV, FI. auto.
  - rewrite FI. apply Y.
  - rewrite FI, FQ, FR'. apply Y.
  - intros a b e H. rewrite !RW. unfold vert_ok. rewrite !TY. rewrite ET in H. destruct (pair_hit u v a b) eqn:PH; [|apply (y_e n g pv Y); auto]. injection H as <-. right. apply pair_hit_iff in PH. unfold vert_ok in VO. destruct PH as [[-> ->]|[-> ->]]; tauto.
  - intros a L1 L2. rewrite FI in L2. destruct (y_p n g pv Y a L1 L2) as (x & X1 & X2 & X3 & X4). exists x. rewrite FQ, !RW. split; auto. split; auto. split; auto. intros w H R. rewrite RW in R. apply X4; auto.
  - intros a b c H1 H2 R1 R2. rewrite !RW in *. apply (y_o n g pv Y a b c); auto.
  - intros l Hl. rewrite FI, FQ. destruct (y_m n g pv Y l Hl) as [K1 [K2 K3]]. split; auto. split; auto. intros w H R. rewrite !RW in R. apply (K3 w); auto.
Qed.
Lemma lay_scalar : forall n f g pv, lay n g pv -> lay n (on_scalar f g) pv.
Proof. intros n f g pv [W V N A E P O M]. constructor; auto. destruct W. constructor; auto. Qed.

(** ** The mapper *)
Record mapd (n : nat) (g : graph) (m : mapper) (pv nr : nat -> nat) : Prop := mkmapd {
  md_k : dkeys (mqubits m) = seq 0 n;
  md_q : forall l, l < n -> dget l (mqubits m) = Some l;
  md_p : forall l, l < n -> dget l (mprev m) = Some (pv l);
  md_r : forall l, l < n -> dget l (mrows m) = Some (nr l);
  md_b : forall l, l < n -> 1 <= nr l /\ (row g (pv l) < crd (nr l))%Qc }.
Definition gst (n : nat) (g : graph) (m : mapper) : Prop := exists pv nr, lay n g pv /\ mapd n g m pv nr.

(** the five kinds of gates whose diagrams have only wires and vertical edges *)
Definition basic5 (k : gate) : Prop := match k with GZ _ _ _ | GX _ _ _ | GHAD _ | GCNOT _ _ | GCZ _ _ => True | _ => False end.
Lemma one_gst : forall n t l p et g m g' m', gst n g m -> l < n ->
  (let* r := next_row m l in let* sv := graph_add_node t l r p et (g, m) in let '((g, m), _) := sv in let* m := advance_next_row l m in Ok (g, m)) = Ok (g', m') -> gst n g' m'.
Proof.
  intros n t l p et g m g' m' (pv & nr & Y & M) Hl H. destruct (md_b _ _ _ _ _ M l Hl) as [B1 B2].
  unfold next_row in H. rewrite (md_r _ _ _ _ _ M l Hl) in H. cbn [of_opt bind] in H.
  unfold graph_add_node, to_qubit, prev_vertex in H. rewrite (md_q _ _ _ _ _ M l Hl), (md_p _ _ _ _ _ M l Hl) in H. cbn [of_opt bind] in H.
  destruct (add_vertex t (crd l) (crd (nr l)) (Some p) g) as [g1 v] eqn:A. inv_bind H. destruct a as [[g2 m2] v']. inv_bind E. injection E as <- <- <-. rename a into g2.
  destruct (lay_node n g pv l t (nr l) p et g1 v g2 Y Hl B1 B2 A E0) as (Y2 & _ & _ & RV & RO & _ & _ & _).
  unfold advance_next_row, next_row in H. cbn [mrows set_prev_vertex] in H. rewrite (md_r _ _ _ _ _ M l Hl) in H. cbn [of_opt bind] in H. injection H as <- <-.
  exists (eset pv l v), (eset nr l (nr l + 1)). split; auto. constructor; cbn [mqubits mprev mrows set_next_row set_prev_vertex].
  - apply M.
  - apply M.
  - intros k Hk. rewrite dget_dset. unfold eset. destruct (Nat.eqb k l); auto. apply M; auto.
  - intros k Hk. rewrite dget_dset. unfold eset. destruct (Nat.eqb k l); auto. apply M; auto.
  - intros k Hk. unfold eset. destruct (Nat.eqb_spec k l) as [->|N].
    + rewrite RV. split; [lia|apply crd_lt; lia].
    + destruct (md_b _ _ _ _ _ M k Hk) as [C1 C2]. split; auto. rewrite RO; auto. assert (X := y_m n g pv Y k Hk). destruct (add_vertex_spec _ _ _ _ _ _ _ (y_w n g pv Y) A) as (Ev & _). lia.
Qed.
Local Opaque add_vertex add_edge crd s_add_power dset.
Lemma two_gst : forall n tt tc et c t g m g' m', gst n g m -> c < n -> t < n -> c <> t -> (forall g u v, vty g u = tt -> vty g v = tc -> vert_ok g u v et) -> two_to_graph tt tc et c t (g, m) = Ok (g', m') -> gst n g' m'.
Proof.
    intros n tt tc et c t g m g' m' (pv & nr & Y & M) Hc Ht D VO H. destruct (md_b _ _ _ _ _ M t Ht) as [B1 B2]. destruct (md_b _ _ _ _ _ M c Hc) as [B3 B4].
    unfold two_to_graph in H. cbn [snd] in H. unfold next_row in H. rewrite (md_r _ _ _ _ _ M t Ht), (md_r _ _ _ _ _ M c Hc) in H. cbn [of_opt bind] in H. cbv zeta in H. set (r := Nat.max (nr t) (nr c)) in *.
    unfold graph_add_node at 1 in H. unfold to_qubit, prev_vertex in H. rewrite (md_q _ _ _ _ _ M t Ht), (md_p _ _ _ _ _ M t Ht) in H. cbn [of_opt bind] in H.
    destruct (add_vertex tt (crd t) (crd r) (Some 0%Qc) g) as [g1 v] eqn:A. inv_bind H. inv_bind E. injection E as <-. rename a0 into g2. cbn [fst snd] in H.
    assert (R1 : (row g (pv t) < crd r)%Qc) by (destruct (Qcle_lt_or_eq (crd (nr t)) (crd r)) as [X|X]; [apply Qcnot_lt_le; intros X; apply crd_lt in X; lia|eapply Qclt_trans; eauto|rewrite <- X; auto]).
    destruct (lay_node n g pv t tt r 0%Qc SIMPLE g1 v g2 Y Ht ltac:(lia) R1 A E0) as (Y2 & EV & GV & RV & RO & TV & TO & EO).
    unfold graph_add_node, to_qubit, prev_vertex in H. cbn [mqubits mprev set_prev_vertex] in H. rewrite dget_dset, (proj2 (Nat.eqb_neq c t) D), (md_q _ _ _ _ _ M c Hc), (md_p _ _ _ _ _ M c Hc) in H. cbn [of_opt bind] in H.
    destruct (add_vertex tc (crd c) (crd r) (Some 0%Qc) g2) as [g3 v2] eqn:A2. inv_bind H. inv_bind E. injection E as <-. rename a0 into g4. cbn [fst snd] in H. inv_bind H. injection H as <- <-. rename a into g5.
    assert (PC : eset pv t v c = pv c) by (unfold eset; rewrite (proj2 (Nat.eqb_neq c t) D); auto).
    destruct (y_m n g pv Y c Hc) as [LC _]. assert (NC : pv c <> v) by lia.
    assert (R2 : (row g2 (eset pv t v c) < crd r)%Qc). { rewrite PC, (RO _ NC). destruct (Qcle_lt_or_eq (crd (nr c)) (crd r)) as [X|X]; [apply Qcnot_lt_le; intros X; apply crd_lt in X; lia|eapply Qclt_trans; eauto|rewrite <- X; auto]. }
    rewrite <- PC in E1.
    destruct (lay_node n g2 (eset pv t v) c tc r 0%Qc SIMPLE g3 v2 g4 Y2 Hc ltac:(lia) R2 A2 E1) as (Y4 & EV2 & GV2 & RV2 & RO2 & TV2 & TO2 & EO2).
    assert (NV : v <> v2) by lia.
    assert (EN : edge_type g4 v v2 = None). { destruct (edge_type g4 v v2) eqn:X; auto. exfalso. rewrite (wf_sym g4 (y_w _ _ _ Y4)) in X. assert (Z : v = eset pv t v c) by (apply EO2; congruence). congruence. }
    destruct (lay_vert n g4 _ v v2 et g5 Y4 NV ltac:(lia) ltac:(lia)) as (Y5 & GV5 & RW5); auto.
    { rewrite RV2, RO2; auto. }
    { apply VO; auto. rewrite TO2; auto. }
    exists (eset (eset pv t v) c v2), (eset (eset nr t (r + 1)) c (r + 1)). split; [apply lay_scalar; auto|]. constructor; cbn [mqubits mprev mrows set_next_row set_prev_vertex].
    - apply M.
    - apply M.
    - intros k Hk. rewrite !dget_dset. unfold eset. destruct (Nat.eqb k c); auto. destruct (Nat.eqb k t); auto. apply M; auto.
    - intros k Hk. rewrite !dget_dset. unfold eset. destruct (Nat.eqb k c); auto. destruct (Nat.eqb k t); auto. apply M; auto.
    - intros k Hk. change (row (on_scalar (s_add_power 1) g5)) with (row g5). unfold eset. rewrite RW5. destruct (Nat.eqb_spec k c) as [->|N1].
      + rewrite RV2. split; [lia|apply crd_lt; lia].
      + destruct (Nat.eqb_spec k t) as [->|N2].
        * rewrite RO2, RV by auto. split; [lia|apply crd_lt; lia].
        * destruct (md_b _ _ _ _ _ M k Hk) as [C1 C2]. split; auto. assert (X := y_m n g pv Y k Hk). rewrite RO2, RO by lia. auto.
Qed.
Local Transparent add_vertex add_edge crd s_add_power dset.
Lemma phase_one : forall t l p g m, phase_to_graph t l p (g, m) =
  (let* r := next_row m l in let* sv := graph_add_node t l r p SIMPLE (g, m) in let '((g, m), _) := sv in let* m := advance_next_row l m in Ok (g, m)).
Proof. reflexivity. Qed.
Lemma gate_gst : forall n k g m g' m', basic5 k -> gate_in n k -> gst n g m -> gate_to_graph k (g, m) = Ok (g', m') -> gst n g' m'.
Proof.
  intros n k g m g' m' B G S H. destruct G as [GO GI]. destruct k; try destruct B; cbn [gate_to_graph prim_to_graph] in H; cbn [gate_qubits] in GI.
  - rewrite phase_one in H. eapply one_gst; [exact S| |exact H]. apply GI; left; auto.
  - rewrite phase_one in H. eapply one_gst; [exact S| |exact H]. apply GI; left; auto.
  - match type of H with had_to_graph ?a _ = _ => rename a into t end. apply (one_gst n ZSP t 0%Qc HADAMARD g m g' m'); auto; [apply GI; left; auto|]. rewrite <- H. unfold had_to_graph, graph_add_node.
    destruct S as (pv & nr & Y & M). assert (Ht : t < n) by (apply GI; left; auto).
    unfold next_row, to_qubit, prev_vertex. rewrite (md_r _ _ _ _ _ M t Ht), (md_q _ _ _ _ _ M t Ht), (md_p _ _ _ _ _ M t Ht). cbn [of_opt bind].
    destruct (add_vertex ZSP (crd t) (crd (nr t)) (Some 0%Qc) g) as [g1 v]. destruct (add_edge (pv t) v HADAMARD g1); cbn [bind]; auto.
  - match type of H with two_to_graph _ _ _ ?a ?b _ = _ => rename a into c; rename b into t end.
    destruct GO as [ND _]. cbn [gate_qubits] in ND. inversion ND; subst. apply (two_gst n XSP ZSP SIMPLE c t g m g' m'); auto; [apply GI; simpl; auto|apply GI; simpl; auto|simpl in *; intuition congruence|]. intros h u v T1 T2. right; right; auto.
  - match type of H with two_to_graph _ _ _ ?a ?b _ = _ => rename a into c; rename b into t end.
    destruct GO as [ND _]. cbn [gate_qubits] in ND. inversion ND; subst. apply (two_gst n ZSP ZSP HADAMARD c t g m g' m'); auto; [apply GI; simpl; auto|apply GI; simpl; auto|simpl in *; intuition congruence|]. intros h u v T1 T2. left; auto.
Qed.
Lemma list_max_in : forall l x, In x l -> x <= list_max l.
Proof. intros l x H. assert (F := proj1 (list_max_le l (list_max l)) (le_n _)). rewrite Forall_forall in F. auto. Qed.
Lemma dget_in_snd : forall V (d : dict V) k v, dget k d = Some v -> In v (map snd d).
Proof. induction d as [|[k' v'] d IH]; intros k v H; [discriminate|]. simpl in *. destruct (Nat.eqb k k'); [injection H as <-; auto|right; eauto]. Qed.
Lemma max_row_ge : forall m l r, dget l (mrows m) = Some r -> r <= max_row m.
Proof. intros. apply list_max_in. eapply dget_in_snd; eauto. Qed.
Lemma crd_le_trans : forall x a b, (x < crd a)%Qc -> a <= b -> (x < crd b)%Qc.
Proof. intros x a b H L. destruct (Nat.eq_dec a b) as [->|N]; auto. eapply Qclt_trans; [exact H|]. apply crd_lt. lia. Qed.
Lemma level_gst : forall cr n g m, gst n g m -> gst n g (snd (level_rows cr (g, m))).
Proof.
  intros [] n g m H; [exact H|]. destruct H as (pv & nr & Y & M). exists pv, (fun _ => max_row m). split; auto. unfold level_rows. cbn [snd]. constructor; try apply M.
  - intros l Hl. assert (X := md_r _ _ _ _ _ M l Hl). cbn [mrows set_all_rows]. revert X. generalize (max_row m) as N. intros N. induction (mrows m) as [|[k r] d IH]; [discriminate|]. simpl. destruct (Nat.eqb l k); auto.
  - intros l Hl. destruct (md_b _ _ _ _ _ M l Hl) as [B1 B2]. assert (X := max_row_ge m l _ (md_r _ _ _ _ _ M l Hl)). split; [lia|]. eapply crd_le_trans; eauto.
Qed.
Lemma gates_gst : forall cr n gs g m g' m', (forall k, In k gs -> basic5 k /\ gate_in n k) -> gst n g m -> foldM (add_one_gate cr) gs (g, m) = Ok (g', m') -> gst n g' m'.
Proof.
  intros cr n. induction gs as [|k gs IH]; intros g m g' m' B S H; cbn [foldM] in H; [injection H as <- <-; auto|]. inv_bind H. destruct a as [g1 m1]. destruct (B k (or_introl eq_refl)) as [B1 B2].
  unfold add_one_gate in E. inv_bind E. destruct a as [g2 m2]. assert (L := level_gst cr n g m S). assert (X : level_rows cr (g, m) = (g, snd (level_rows cr (g, m)))) by (destruct cr; reflexivity).
  rewrite X in E0. assert (S2 := gate_gst n k g _ g2 m2 B1 B2 L E0). assert (L2 := level_gst cr n g2 m2 S2).
  assert (X2 : level_rows cr (g2, m2) = (g2, snd (level_rows cr (g2, m2)))) by (destruct cr; reflexivity). rewrite X2 in E. injection E as <- <-. eapply IH; [intros; apply B; right; auto|exact L2|exact H].
Qed.
Lemma ins_gst : forall n, exists g m, fold_left add_input (seq 0 n) ((empty_graph, mapper_init), []) = ((g, m), seq 0 n) /\ wfg g /\ vertices g = seq 0 n /\ gvindex g = n /\ dkeys (mqubits m) = seq 0 n /\
  (forall l, l < n -> dget l (mqubits m) = Some l /\ dget l (mprev m) = Some l /\ dget l (mrows m) = Some 1 /\ dget l (gqindex g) = Some (crd l) /\ dget l (grindex g) = Some (crd 0)) /\ forall u v, edge_type g u v = None.
Proof.
  induction n as [|n (g & m & E & W & V & GI & KQ & A & ED)].
  - exists empty_graph, mapper_init. cbn. split; auto. split; [apply empty_wf|]. do 3 (split; [auto|]). split; [intros l X; lia|auto].
  - rewrite seq_S, fold_left_app, E. cbn [fold_left]. unfold add_input. rewrite Nat.add_0_l. destruct (add_vertex BOUNDARY (crd n) (crd 0) (Some 0%Qc) g) as [g1 v] eqn:AV.
    destruct (add_vertex_spec _ _ _ _ _ _ _ W AV) as (EV & W' & V' & ET & _). destruct (add_vertex_row _ _ _ _ _ _ _ AV) as [GI' _]. assert (PO := add_vertex_pos _ _ _ _ _ _ _ AV). assert (EN : v = n) by congruence. rewrite EN in *. clear EN v.
    eexists. eexists. split; [reflexivity|]. split; auto. split; [congruence|]. split; [congruence|]. split.
    { cbn [mqubits m_set_qubit set_next_row set_prev_vertex]. rewrite dkeys_dset_notin; [rewrite KQ; auto|]. rewrite KQ, in_seq. lia. }
    split; [|intros; rewrite ET; auto]. intros l Hl. destruct (PO l) as [P1 P2]. cbn [mqubits mprev mrows m_set_qubit set_next_row set_prev_vertex]. rewrite !dget_dset, P1, P2. destruct (Nat.eqb_spec l n) as [->|N]; [auto|]. apply A. lia.
Qed.
Local Opaque add_vertex add_edge crd s_add_power dset.
Lemma outs_lay : forall n m nr, (forall l, l < n -> dget l (mqubits m) = Some l) -> forall k j g vs g' vs' pv, k + j = n -> lay n g pv ->
  (forall l, l < n -> k <= l -> dget l (mprev m) = Some (pv l) /\ (row g (pv l) < crd nr)%Qc) -> (forall l, l < k -> nth l vs 0 = pv l) -> length vs = k -> 1 <= nr ->
  foldM (add_output nr m) (seq k j) (g, vs) = Ok (g', vs') -> exists pv', lay n g' pv' /\ length vs' = n /\ forall l, l < n -> nth l vs' 0 = pv' l.
Proof.
  intros n m nr MQ k j. revert k. induction j as [|j IH]; intros k g vs g' vs' pv KJ Y MP NV LV N1 H.
  - cbn in H. injection H as <- <-. exists pv. split; auto. rewrite Nat.add_0_r in KJ. subst k. auto.
  - cbn [seq foldM] in H. inv_bind H. destruct a as [g1 vs1]. unfold add_output in E. assert (Hk : k < n) by lia. destruct (MP k Hk (le_n k)) as [P1 P2].
    unfold to_qubit, prev_vertex in E. rewrite (MQ k Hk), P1 in E. cbn [of_opt bind] in E. destruct (add_vertex BOUNDARY (crd k) (crd nr) (Some 0%Qc) g) as [g2 v] eqn:A. inv_bind E. injection E as <- <-. rename a into g3.
    destruct (lay_node n g pv k BOUNDARY nr 0%Qc SIMPLE g2 v g3 Y Hk N1 P2 A E0) as (Y3 & EV & _ & RV & RO & _).
    apply (IH (S k) g3 (vs ++ [v]) g' vs' (eset pv k v)); auto; [lia| | |rewrite app_length; simpl; lia].
    + intros l Hl Kl. unfold eset. rewrite (proj2 (Nat.eqb_neq l k)) by lia. destruct (MP l Hl) as [Q1 Q2]; [lia|]. split; auto. rewrite RO; auto. assert (X := y_m n g pv Y l Hl). lia.
    + intros l Hl. unfold eset. destruct (Nat.eqb_spec l k) as [->|N]; [rewrite app_nth2, LV, Nat.sub_diag by lia; auto|]. rewrite app_nth1 by lia. apply NV. lia.
Qed.
Local Transparent add_vertex add_edge crd s_add_power dset.
Theorem drawn_circuit : forall so compress c g, (forall l, so l = l) -> (forall k, In k (cgates c) -> basic5 k /\ gate_in (cqubits c) k) ->
  circuit_to_graph so compress c = Ok g -> circuit_like (cqubits c) g /\ wired g.
Proof.
  intros so cr [n gs] g SO B H. cbn [cqubits cgates] in *.
  assert (ZG : zinv g /\ length (ginputs g) = n /\ length (goutputs g) = n /\ NoDup (ginputs g ++ goutputs g)).
  { destruct (circuit_graph_ok so cr (mkCirc n gs)) as (g' & z & E & _ & _ & Z & L1 & L2 & ND & _); [intros l; rewrite SO; auto| |].
    - intros k Hk. cbn [cgates cqubits] in *. destruct (B k Hk) as [B1 B2]. split; auto. destruct k; try exact I; destruct B1.
    - rewrite E in H. injection H as <-. auto. }
  destruct ZG as (Z & L1 & L2 & ND). assert (ZX := zi_zx g Z).
  unfold circuit_to_graph in H. cbn [cqubits cgates] in H. destruct (ins_gst n) as (g0 & m0 & E0 & W0 & V0 & GI0 & KQ & A0 & ED0). rewrite E0 in H. inv_bind H. destruct a as [g1 m1].
  assert (S0 : gst n g0 m0).
  { exists (fun l => l), (fun _ => 1). split.
    - constructor; auto; try lia.
      + rewrite GI0. auto.
      + intros v Hv. rewrite GI0 in Hv. exists v, 0. destruct (A0 v Hv) as (_ & _ & _ & Q1 & Q2). split; auto. split; auto. split; auto. split; [auto|lia].
      + intros u v et X. rewrite ED0 in X. discriminate.
      + intros u v w X. rewrite ED0 in X. congruence.
      + intros l Hl. destruct (A0 l Hl) as (_ & _ & _ & Q1 & Q2). rewrite GI0. split; auto.
    - constructor; auto; try (intros l Hl; apply A0; auto). intros l Hl. split; auto. destruct (A0 l Hl) as (_ & _ & _ & _ & Q2). unfold row. rewrite Q2. apply crd_lt. lia. }
  destruct (gates_gst cr n gs g0 m0 g1 m1 B S0 E) as (pv & nr & Y & M). unfold labels in H. rewrite SO, (md_k _ _ _ _ _ M) in H. inv_bind H. destruct a as [g2 vs]. injection H as <-. cbn [fst snd] in *.
  assert (OUT : exists pv', lay n g2 pv' /\ length vs = n /\ forall l, l < n -> nth l vs 0 = pv' l).
  { destruct n as [|n'].
    - cbn in E1. injection E1 as <- <-. exists pv. split; auto. split; auto. intros l X. lia.
    - apply (outs_lay (S n') m1 (max_row m1) (md_q _ _ _ _ _ M) 0 (S n') g1 [] g2 vs pv); auto.
      + intros l Hl _. split; [apply M; auto|]. destruct (md_b _ _ _ _ _ M l Hl) as [B1 B2]. eapply crd_le_trans; [exact B2|]. eapply max_row_ge. apply M; auto.
      + intros l X. lia.
      + assert (X := max_row_ge m1 0 _ (md_r _ _ _ _ _ M 0 ltac:(lia))). assert (X2 := md_b _ _ _ _ _ M 0 ltac:(lia)). lia. }
  destruct OUT as (pv' & Y2 & LV & NV).
  set (g := set_outputs vs (set_inputs (seq 0 n) g2)) in *.
  assert (IN : ginputs g = seq 0 n) by reflexivity. assert (OU : goutputs g = vs) by reflexivity.
  assert (VV : forall v, In v (vertices g) -> v < gvindex g2) by (intros v Hv; change (In v (vertices g2)) in Hv; rewrite (y_v _ _ _ Y2) in Hv; apply in_seq in Hv; lia).
  assert (AT : forall v, In v (vertices g) -> exists q r, q < n /\ dget v (gqindex g) = Some (crd q) /\ row g v = crd r /\ (v < n -> q = v /\ r = 0) /\ (n <= v -> 1 <= r)).
  { intros v Hv. destruct (y_at _ _ _ Y2 v (VV v Hv)) as (q & r & X1 & X2 & X3 & X4). exists q, r. split; auto. split; auto. split; auto. unfold row. change (grindex g) with (grindex g2). rewrite X3. auto. }
  assert (II : forall u, In u (ginputs g) -> In u (vertices g) /\ u < n) by (intros u Hu; split; [apply (zx_io g ZX); auto|rewrite IN in Hu; apply in_seq in Hu; lia]).
  split.
  - constructor; auto.
    + intros i Hi. rewrite IN, seq_nth by auto. assert (X : In i (ginputs g)) by (rewrite IN; apply in_seq; lia). destruct (AT i (proj1 (II i X))) as (q & r & _ & X2 & _ & X4 & _). destruct (X4 Hi) as [-> _]. exact X2.
    + intros i Hi. rewrite OU, NV by auto. apply (y_m _ _ _ Y2 i Hi).
    + intros u v Hu Hv Nv. destruct (II u Hu) as [Vu Lu]. destruct (AT u Vu) as (q & r & _ & _ & X3 & X4 & _). destruct (X4 Lu) as [_ ->]. rewrite X3. destruct (AT v Hv) as (q' & r' & _ & _ & X3' & _ & X5').
      rewrite X3'. apply crd_lt. assert (n <= v) by (destruct (le_lt_dec n v); auto; exfalso; apply Nv; rewrite IN; apply in_seq; lia). auto.
    + intros u v Hu Hv. destruct (edge_type g u v) as [et|] eqn:X; auto. exfalso. destruct (y_e _ _ _ Y2 u v et X) as [R|V].
      * destruct (II u Hu) as [Vu Lu]. destruct (II v Hv) as [Vv Lv]. destruct (AT u Vu) as (q & r & _ & _ & X3 & X4 & _). destruct (X4 Lu) as [_ ->]. destruct (AT v Vv) as (q' & r' & _ & _ & X3' & X4' & _). destruct (X4' Lv) as [_ ->]. apply R. change (row g u = row g v). congruence.
      * destruct (zx_io g ZX u (or_introl Hu)) as [_ T]. unfold isB in T. unfold vert_ok in V. change (vty g2) with (vty g) in V. destruct V as [[V _]|[[V _]|[V _]]]; rewrite V in T; discriminate.
    + exact (y_o _ _ _ Y2).
    + change (vertices g) with (vertices g2). rewrite (y_v _ _ _ Y2). generalize (gvindex g2). generalize 0. intros a b. revert a. induction b as [|b IH]; intros a; [constructor|]. cbn [seq]. constructor; auto. apply Forall_forall. intros x X. apply in_seq in X. lia.
  - constructor.
    + intros v Hv. destruct (AT v Hv) as (q & r & _ & X & _). eauto.
    + intros v Hv Nv. apply (y_p _ _ _ Y2 v); auto. destruct (le_lt_dec n v); auto. exfalso; apply Nv; rewrite IN; apply in_seq; lia.
    + intros u v et X R. destruct (y_e _ _ _ Y2 u v et X) as [R'|V]; auto. contradiction.
Qed.
