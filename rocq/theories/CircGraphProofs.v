(** circuit_to_graph: the diagram built denotes the circuit. *)
From Coq Require Import Reals ZArith QArith Qcanon List Bool Arith Lia Permutation FunctionalExtensionality.
From Verif Require Import CNum Base ScalarModel ScalarProofs GraphModel GraphSem SumLemmas GraphProofs GraphOps RulesModel RuleLemmas
  SpiderProofs IsoProofs IdProofs LcompProofs PivotProofs GrowProofs StoreProofs InvProofs BfixProofs TotalProofs GrowTotal
  GateModel CircSpec GateProofs GateDecomp GateAdj GateMask CircGraphModel AmpProofs.
Import ListNotations.
Open Scope C_scope.

(** ** Hadamards on a set of qubits *)
Definition hads (F : nat -> bool) (L : list nat) (s : state) : state := fold_right (fun q s => if F q then op1 mH q s else s) s L.
Definition off (F : nat -> bool) (q : nat) : nat -> bool := fun i => if Nat.eqb i q then false else F i.
Definition hif (c : bool) (q : nat) (s : state) : state := if c then op1 mH q s else s.
Lemma hads_ext : forall F F' L s, (forall q, In q L -> F q = F' q) -> hads F L s = hads F' L s.
Proof. induction L as [|a L IH]; intros s H; simpl; auto. rewrite (H a) by (simpl; auto). rewrite IH; auto. intros; apply H; simpl; auto. Qed.
Lemma hads_comm : forall (Op : state -> state) F L, (forall q s, In q L -> F q = true -> Op (op1 mH q s) = op1 mH q (Op s)) ->
  forall s, Op (hads F L s) = hads F L (Op s).
Proof.
  intros Op F. induction L as [|a L IH]; intros H s; simpl; auto. destruct (F a) eqn:E.
  - rewrite H by (simpl; auto). rewrite IH; auto. intros; apply H; simpl; auto.
  - apply IH. intros; apply H; simpl; auto.
Qed.
Lemma op1_comm : forall m n a b s, a <> b -> op1 m a (op1 n b s) = op1 n b (op1 m a s).
Proof.
  intros m n a b s D. apply state_ext. intros x. unfold op1.
  rewrite !(upd_other x a _ b) by auto. rewrite !(upd_other x b _ a) by auto.
  rewrite !(upd_comm x a b) by auto. ring.
Qed.
Lemma hads_off : forall F L q s, NoDup L -> In q L -> hads F L s = hads (off F q) L (hif (F q) q s).
Proof.
  intros F. induction L as [|a L IH]; intros q s N H; [destruct H|]. apply NoDup_cons_iff in N. destruct N as [N1 N2].
  simpl. destruct H as [->|H].
  - unfold off at 1. rewrite Nat.eqb_refl. rewrite (hads_ext (off F q) F) by (intros i Hi; unfold off; destruct (Nat.eqb_spec i q); auto; subst; contradiction).
    unfold hif. destruct (F q); auto. apply (hads_comm (op1 mH q)). intros i t Hi _. apply op1_comm. intros ->; contradiction.
  - unfold off at 1. destruct (Nat.eqb_spec a q); [subst; contradiction|]. rewrite (IH q) by auto. reflexivity.
Qed.
Lemma hads_none : forall F L s, (forall q, In q L -> F q = false) -> hads F L s = s.
Proof. induction L as [|a L IH]; intros s H; simpl; auto. rewrite H by (simpl; auto). apply IH. intros; apply H; simpl; auto. Qed.
Lemma hif_hif : forall c d q s, hif c q (hif d q s) = hif (xorb c d) q s.
Proof. intros [] [] q s; simpl; auto. rewrite op1_op1, (op1_ext _ mI) by apply mH_inv. apply op1_I. Qed.
Definition isH (e : etype) : bool := match e with HADAMARD => true | SIMPLE => false end.
Definition wm (e : etype) : mat2 := fun a w => wt (Some e) w a.
Lemma wm_op : forall e q s, op1 (wm e) q s = hif (isH e) q s.
Proof.
  intros [] q s; simpl.
  - rewrite (op1_ext _ mI) by (intros [] []; reflexivity). apply op1_I.
  - apply op1_ext. intros a w. unfold wm, wt, mH, mk2. rewrite sq2p_m1. destruct a, w; simpl; ring.
Qed.
Lemma isH_tog : forall b e, isH (tog b e) = xorb b (isH e).
Proof. intros [] []; reflexivity. Qed.

(** ** The state of the construction *)
Definition pv (m : mapper) (q : nat) : nat := match dget q (mprev m) with Some v => v | None => 0%nat end.
Record bst (n : nat) (ins : list nat) (g : graph) (m : mapper) : Prop := mkbst {
  b_wf : wfg g;
  b_nl : noloop g;
  b_ty : forall v, In v (vertices g) -> if isB g v then In v ins else vty g v = ZSP \/ vty g v = XSP;
  b_ins : forall v, In v ins -> In v (vertices g) /\ vty g v = BOUNDARY;
  b_ph : forall v, In v (vertices g) -> in02 (phase g v);
  b_b0 : forall v, In v ins -> phase g v = 0%Qc;
  b_rows : rows_ok g;
  b_keys : dkeys (mqubits m) = seq 0 n;
  b_q : forall q, (q < n)%nat -> dget q (mqubits m) = Some q;
  b_r : forall q, (q < n)%nat -> exists r, dget q (mrows m) = Some r;
  b_p : forall q, (q < n)%nat -> dget q (mprev m) = Some (pv m q) /\ In (pv m q) (vertices g);
  b_inj : forall q q', (q < n)%nat -> (q' < n)%nat -> pv m q = pv m q' -> q = q';
  b_deg : forall b, In b ins ->
    (exists q, (q < n)%nat /\ pv m q = b /\ forall w, edge_type g b w = None) \/
    ((forall q, (q < n)%nat -> pv m q <> b) /\ exists u, forall w, edge_type g b w <> None <-> w = u);
  b_io : ginputs g = [] /\ goutputs g = []
}.
Lemma pv_set : forall q v m i, pv (set_prev_vertex q v m) i = if Nat.eqb i q then v else pv m i.
Proof. intros. unfold pv, set_prev_vertex. simpl. rewrite dget_dset. destruct (Nat.eqb i q); auto. Qed.

Lemma same_frame_nl : forall g g' s t et, noloop g -> s <> t -> (forall u v, edge_type g' u v = if pair_hit s t u v then Some et else edge_type g u v) -> noloop g'.
Proof. intros g g' s t et N D H v. rewrite H. rewrite pair_hit_false; auto; congruence. Qed.

(** rows do not matter *)
Lemma bst_rows : forall n ins g m m', bst n ins g m -> mqubits m' = mqubits m -> mprev m' = mprev m ->
  (forall q, (q < n)%nat -> exists r, dget q (mrows m') = Some r) -> bst n ins g m'.
Proof.
  intros n ins g m m' B E1 E2 H. destruct B. assert (P : forall q, pv m' q = pv m q) by (intros; unfold pv; rewrite E2; auto).
  constructor; auto.
  - rewrite E1; auto.
  - intros; rewrite E1; auto.
  - intros q Hq. rewrite P, E2. auto.
  - intros q q' Hq Hq'. rewrite !P. auto.
  - intros b Hb. destruct (b_deg0 b Hb) as [[q [H1 [H2 H3]]]|[H1 H2]]; [left; exists q; rewrite P; auto|right; split; auto]. intros q Hq. rewrite P. auto.
Qed.

(** an internal vertex without edges *)
Lemma bst_vertex : forall n ins g m t q r p g' v, bst n ins g m -> t = ZSP \/ t = XSP -> add_vertex t q r (Some p) g = (g', v) -> bst n ins g' m.
Proof.
  intros n ins g m t q r p g' v B HT E. destruct (add_vertex_rows _ _ _ _ _ _ _ (b_wf _ _ _ _ B) (b_rows _ _ _ _ B) E) as [_ [R' _]].
  destruct (add_vertex_spec _ _ _ _ _ _ _ (b_wf _ _ _ _ B) E) as [Ev [W' [V [ET [_ [T [P [I [O S]]]]]]]]].
  assert (Fv := vertices_pv_fresh g v (b_wf _ _ _ _ B) Ev). destruct B.
  assert (NI : forall b, In b ins -> b <> v) by (intros b Hb ->; apply Fv; apply b_ins0; auto).
  constructor; auto.
  - intros u. rewrite ET. auto.
  - intros u Hu. rewrite V, in_app_iff in Hu. unfold isB. rewrite T. destruct (Nat.eqb_spec u v).
    + destruct HT as [-> | ->]; simpl; auto.
    + apply b_ty0. destruct Hu as [Hu|[Hu|[]]]; auto; congruence.
  - intros u Hu. rewrite V, in_app_iff, T. rewrite (proj2 (Nat.eqb_neq u v)) by auto. destruct (b_ins0 u Hu). auto.
  - intros u Hu. rewrite P. destruct (Nat.eqb_spec u v); [apply qmod2_range|]. apply b_ph0. rewrite V, in_app_iff in Hu. destruct Hu as [Hu|[Hu|[]]]; auto; congruence.
  - intros u Hu. rewrite P. rewrite (proj2 (Nat.eqb_neq u v)) by auto. auto.
  - intros i Hi. rewrite V, in_app_iff. destruct (b_p0 i Hi). auto.
  - intros b Hb. destruct (b_deg0 b Hb) as [[i [H1 [H2 H3]]]|[H1 [u H2]]]; [left; exists i|right; split; auto; exists u].
    + split; auto. split; auto. intros w. rewrite ET. auto.
    + intros w. rewrite ET. auto.
  - rewrite I, O. auto.
Qed.
(** an edge between vertices that are not inputs *)
Lemma bst_edge : forall n ins g m s t et, bst n ins g m -> s <> t -> In s (vertices g) -> In t (vertices g) -> ~ In s ins -> ~ In t ins ->
  edge_type g s t = None -> exists g', add_edge s t et g = Ok g' /\ bst n ins g' m /\ same_frame g g' /\ (forall u, phase g' u = phase g u) /\
  (forall u v, edge_type g' u v = if pair_hit s t u v then Some et else edge_type g u v) /\
  (forall L p l1 l2 b z, In l1 L -> In l2 L -> p l1 = s -> p l2 = t ->
     amp L p g' b z = wt (Some (tog (xorb (isX g s) (isX g t)) et)) (z l1) (z l2) * amp L p g b z).
Proof.
  intros n ins g m s t et B D Is It Ns Nt EN. destruct (add_edge_new s t et g (b_wf _ _ _ _ B) D Is It EN) as [g' [E [W' [F [P [ET A]]]]]].
  exists g'. split; auto. split; auto. assert (FV := fun u => same_frame_vty g g' u F). destruct F as [V [T [I [O [_ [_ R]]]]]]. destruct B.
  assert (EB : forall b w, In b ins -> edge_type g' b w = edge_type g b w).
  { intros b w Hb. rewrite ET, pair_hit_false; auto; intros X; injection X as -> ->; contradiction. }
  constructor; auto.
  - eapply same_frame_nl; eauto.
  - intros u. rewrite V. unfold isB. rewrite FV. apply b_ty0.
  - intros u. rewrite V, FV. apply b_ins0.
  - intros u. rewrite V, P. auto.
  - intros u. rewrite P. auto.
  - intros u. rewrite V, R. apply b_rows0.
  - intros i. rewrite V. auto.
  - intros b Hb. destruct (b_deg0 b Hb) as [[i [H1 [H2 H3]]]|[H1 [u H2]]]; [left; exists i|right; split; auto; exists u].
    + split; auto. split; auto. intros w. rewrite EB; auto.
    + intros w. rewrite EB; auto.
  - rewrite I, O. auto.
Qed.
Lemma bst_set_phase : forall n ins g m v p, bst n ins g m -> In v (vertices g) -> ~ In v ins -> bst n ins (set_phase v p g) m.
Proof.
  intros n ins g m v p B Hv N. destruct B. constructor; auto.
  - apply set_phase_wfg; auto.
  - intros u Hu. rewrite phase_set_phase. destruct (Nat.eqb u v); [apply qmod2_range|auto].
  - intros u Hu. rewrite phase_set_phase. destruct (Nat.eqb_spec u v); auto. subst; contradiction.
Qed.
Lemma bst_power : forall n ins g m k, bst n ins g m -> bst n ins (on_scalar (s_add_power k) g) m.
Proof. intros n ins g m k B. destruct B. constructor; auto. apply on_scalar_wfg; auto. Qed.

(** graph_add_node: the structure *)
Lemma node_ok : forall n ins g m q r p et ty, bst n ins g m -> (q < n)%nat -> ty = ZSP \/ ty = XSP ->
  exists g' v, graph_add_node ty q r p et (g, m) = Ok ((g', set_prev_vertex q v m), v) /\ bst n ins g' (set_prev_vertex q v m) /\
  ~ In v (vertices g) /\ vertices g' = vertices g ++ [v] /\ (forall u, vty g' u = if Nat.eqb u v then ty else vty g u) /\
  (forall u, phase g' u = if Nat.eqb u v then qmod2 p else phase g u) /\
  (forall u w, edge_type g' u w = if pair_hit (pv m q) v u w then Some et else edge_type g u w) /\
  (forall b, amp (seq 0 n) (pv (set_prev_vertex q v m)) g' b =
     op1 (mP p) q (op1 (wm (tog (xorb (isX g (pv m q)) (vtype_eqb ty XSP)) et)) q (amp (seq 0 n) (pv m) g b))).
Proof.
  intros n ins g m q r p et ty B Hq HT. unfold graph_add_node, to_qubit, prev_vertex. rewrite (b_q _ _ _ _ B q Hq). cbn [of_opt bind].
  destruct (add_vertex ty (crd q) (crd r) (Some p) g) as [g1 v] eqn:E1.
  assert (B1 := bst_vertex _ _ _ _ _ _ _ _ _ _ B HT E1).
  destruct (add_vertex_spec _ _ _ _ _ _ _ (b_wf _ _ _ _ B) E1) as [Ev [W1 [V1 [ET1 [_ [T1 [P1 [I1 [O1 S1]]]]]]]]].
  assert (Fv := vertices_pv_fresh g v (b_wf _ _ _ _ B) Ev).
  destruct (b_p _ _ _ _ B q Hq) as [Dq Vq]. rewrite Dq. cbn [of_opt bind].
  assert (D : pv m q <> v) by (intros X; apply Fv; rewrite <- X; auto).
  assert (Vq1 : In (pv m q) (vertices g1)) by (rewrite V1, in_app_iff; auto).
  assert (Vv1 : In v (vertices g1)) by (rewrite V1, in_app_iff; simpl; auto).
  assert (Nv : forall w, edge_type g1 v w = None /\ edge_type g1 w v = None) by (intros w; rewrite !ET1; apply edge_none_out; auto; apply B).
  destruct (add_edge_new (pv m q) v et g1 W1 D Vq1 Vv1 (proj2 (Nv (pv m q)))) as [g2 [E2 [W2 [F2 [P2 [ET2 A2]]]]]].
  rewrite E2. cbn [bind]. exists g2, v. split; auto.
  assert (ET : forall u w, edge_type g2 u w = if pair_hit (pv m q) v u w then Some et else edge_type g u w) by (intros; rewrite ET2, ET1; auto).
  assert (TT : forall u, vty g2 u = if Nat.eqb u v then ty else vty g u) by (intros; rewrite (same_frame_vty g1 g2) by auto; auto).
  assert (NL2 : noloop g2) by (eapply same_frame_nl; [apply (b_nl _ _ _ _ B1)|exact D|exact ET2]).
  assert (F2c := F2). destruct F2 as [FV2 [FT2 [FI2 [FO2 [_ [_ FR2]]]]]].
  assert (VV : vertices g2 = vertices g ++ [v]) by (rewrite FV2; auto).
  split; [|split; auto; split; auto; split; auto; split; [intros; rewrite P2; auto|split; auto]].
  - destruct B1. constructor; auto.
    + intros u. rewrite FV2. unfold isB. rewrite (same_frame_vty g1 g2) by auto. apply b_ty0.
    + intros u. rewrite FV2. rewrite (same_frame_vty g1 g2) by auto. apply b_ins0.
    + intros u. rewrite FV2, P2. auto.
    + intros u. rewrite P2. auto.
    + intros u. rewrite FV2, FR2. apply b_rows0.
    + intros i Hi. rewrite pv_set, FV2. unfold set_prev_vertex. cbn [mprev]. rewrite dget_dset. destruct (Nat.eqb_spec i q); auto.
    + intros i j Hi Hj. rewrite !pv_set. assert (X : forall k, (k < n)%nat -> pv m k <> v) by (intros k Hk Y; apply Fv; rewrite <- Y; apply (b_p _ _ _ _ B); auto).
      destruct (Nat.eqb_spec i q), (Nat.eqb_spec j q); subst; auto; intros Y; exfalso; [apply (X j)|apply (X i)]; auto.
    + intros b Hb. assert (Hbv : b <> v) by (intros ->; apply Fv; apply (b_ins _ _ _ _ B); auto).
      destruct (Nat.eq_dec b (pv m q)) as [->|Nb].
      * right. split.
        -- intros k Hk. rewrite pv_set. destruct (Nat.eqb_spec k q); [congruence|]. intros X. apply n0. apply (b_inj _ _ _ _ B); auto.
        -- exists v. intros w. rewrite ET. unfold pair_hit. rewrite Nat.eqb_refl, (proj2 (Nat.eqb_neq (pv m q) v)) by auto. cbn [andb]. rewrite orb_false_r.
           destruct (Nat.eqb_spec w v); [subst; split; auto; discriminate|]. split; [|congruence]. intros X. exfalso. apply X.
           destruct (b_deg _ _ _ _ B _ Hb) as [[k [H1 [H2 H3]]]|[H1 _]]; [apply H3|]. destruct (H1 q Hq). reflexivity.
      * assert (EB : forall w, edge_type g2 b w = edge_type g b w).
        { intros w. rewrite ET, pair_hit_false; auto; intros X; injection X as -> ->; contradiction. }
        destruct (b_deg _ _ _ _ B _ Hb) as [[k [H1 [H2 H3]]]|[H1 [u H2]]].
        -- left. exists k. split; auto. rewrite pv_set. destruct (Nat.eqb_spec k q); [subst; contradiction|]. split; auto. intros w. rewrite EB. auto.
        -- right. split; [|exists u; intros w; rewrite EB; auto]. intros k Hk. rewrite pv_set. destruct (Nat.eqb k q); auto.
    + rewrite FI2, FO2. auto.
  - intros b. apply state_ext. intros z.
    (* a fresh label for the new vertex *)
    set (p1 := fun i => if Nat.eqb i n then v else pv m i).
    set (L0 := filter (fun i => negb (Nat.eqb i q)) (seq 0 n)).
    assert (HP : Permutation (seq 0 n) (q :: L0)).
    { apply nodup_same_perm; [apply seq_NoDup| |].
      - constructor; [|apply NoDup_filter, seq_NoDup]. unfold L0. rewrite filter_In, Nat.eqb_refl. simpl. intuition congruence.
      - intros a. unfold L0. simpl. rewrite filter_In, in_seq. destruct (Nat.eqb_spec a q); subst; simpl; intuition; try lia. }
    assert (Q0 : ~ In q L0) by (unfold L0; rewrite filter_In, Nat.eqb_refl; simpl; intuition congruence).
    assert (Ln : forall i, In i L0 -> (i < n)%nat) by (unfold L0; intros i; rewrite filter_In, in_seq; lia).
    assert (N0 : ~ In n L0) by (intros X; apply Ln in X; lia).
    assert (XA : isX g1 (pv m q) = isX g (pv m q)) by (unfold isX; rewrite T1, (proj2 (Nat.eqb_neq (pv m q) v)) by auto; auto).
    assert (XB : isX g1 v = vtype_eqb ty XSP) by (unfold isX; rewrite T1, Nat.eqb_refl; auto).
    assert (STEP : forall y, amp (n :: q :: L0) p1 g2 b y = wt (Some (tog (xorb (isX g (pv m q)) (vtype_eqb ty XSP)) et)) (y q) (y n) * (ephase p (y n) * amp (seq 0 n) (pv m) g b y)).
    { intros y. rewrite (A2 (n :: q :: L0) p1 q n).
      - rewrite XA, XB. f_equal. rewrite (amp_vertex ty (crd q) (crd r) p g g1 v (q :: L0) p1 n b y (b_wf _ _ _ _ B) E1).
        2:{ destruct HT; subst; discriminate. }
        2:{ intros i Hi. unfold p1. destruct (Nat.eqb_spec i n); [subst; destruct Hi as [Hi|Hi]; [lia|contradiction]|]. apply (b_p _ _ _ _ B). destruct Hi as [<-|Hi]; auto. }
        2:{ intros [X|X]; [lia|contradiction]. }
        2:{ unfold p1. rewrite Nat.eqb_refl. auto. }
        f_equal. rewrite (amp_perm _ _ (pv m) g b y HP). apply amp_ext. intros i Hi. split; auto. unfold p1. destruct (Nat.eqb_spec i n); auto.
        subst. destruct Hi as [Hi|Hi]; [lia|contradiction].
      - simpl; auto.
      - simpl; auto.
      - unfold p1. destruct (Nat.eqb_spec q n); [lia|auto].
      - unfold p1. rewrite Nat.eqb_refl. auto. }
    rewrite (amp_perm _ _ _ _ _ _ HP).
    rewrite (amp_ext (q :: L0) (pv (set_prev_vertex q v m)) (fun i => if Nat.eqb i q then p1 n else p1 i) g2 b z z).
    2:{ intros i Hi. split; auto. rewrite pv_set. destruct (Nat.eqb i q) eqn:Ei; [unfold p1; rewrite Nat.eqb_refl; auto|].
        unfold p1. destruct (Nat.eqb_spec i n); auto. exfalso. apply Nat.eqb_neq in Ei. destruct Hi as [Hi|Hi]; [congruence|]. apply Ln in Hi. lia. }
    rewrite amp_rename by auto. rewrite (amp_close q) by (intros [X|X]; [lia|contradiction]).
    rewrite !(amp_perm (q :: n :: L0) (n :: q :: L0)) by apply perm_swap. rewrite !STEP.
    rewrite op1_P. unfold op1, wm. rewrite !upd_same. rewrite !(upd_other (upd z n (z q)) q _ n) by lia. rewrite !upd_same.
    assert (XE : forall w, amp (seq 0 n) (pv m) g b (upd (upd z n (z q)) q w) = amp (seq 0 n) (pv m) g b (upd z q w)).
    { intros w. apply amp_ext. intros i Hi. split; auto. rewrite upd_comm by lia. rewrite upd_other; auto. apply in_seq in Hi. lia. }
    rewrite !XE. unfold ephase. destruct (z q); ring.
Qed.

(** ** Gates *)
Definition st (n : nat) (ins : list nat) (g : graph) (m : mapper) (S : assignment -> state) : Prop :=
  bst n ins g m /\ forall b, amp (seq 0 n) (pv m) g b = hads (fun q => isX g (pv m q)) (seq 0 n) (S b).
Definition nodeop (c : bool) (et : etype) (p : Qc) (q : nat) (s : state) : state :=
  hif c q (op1 (mP p) q (hif (xorb c (isH et)) q s)).

Lemma node_st : forall n ins g m S q r p et ty, st n ins g m S -> (q < n)%nat -> ty = ZSP \/ ty = XSP ->
  exists g' v, graph_add_node ty q r p et (g, m) = Ok ((g', set_prev_vertex q v m), v) /\
  st n ins g' (set_prev_vertex q v m) (fun b => nodeop (vtype_eqb ty XSP) et p q (S b)) /\
  ~ In v (vertices g) /\ vertices g' = vertices g ++ [v] /\ (forall u, vty g' u = if Nat.eqb u v then ty else vty g u) /\
  (forall u, phase g' u = if Nat.eqb u v then qmod2 p else phase g u) /\
  (forall u w, edge_type g' u w = if pair_hit (pv m q) v u w then Some et else edge_type g u w).
Proof.
  intros n ins g m S q r p et ty [B A] Hq HT. destruct (node_ok n ins g m q r p et ty B Hq HT) as [g' [v [E [B' [Fv [V [T [P [ET A']]]]]]]]].
  exists g', v. split; auto. split; [|repeat (split; auto)]. split; auto. intros b. rewrite A', A.
  assert (Iq : In q (seq 0 n)) by (apply in_seq; lia).
  set (F := fun i => isX g (pv m i)). set (F' := fun i => isX g' (pv (set_prev_vertex q v m) i)).
  assert (FF : forall i, In i (seq 0 n) -> off F' q i = off F q i).
  { intros i Hi. apply in_seq in Hi. unfold off, F, F'. destruct (Nat.eqb i q) eqn:Ei; auto. rewrite pv_set, Ei. unfold isX. rewrite T.
    destruct (Nat.eqb_spec (pv m i) v); auto. exfalso. apply Fv. rewrite <- e. apply (b_p _ _ _ _ B). lia. }
  assert (Fq : F' q = vtype_eqb ty XSP) by (unfold F'; rewrite pv_set, Nat.eqb_refl; unfold isX; rewrite T, Nat.eqb_refl; auto).
  rewrite (hads_off F _ q), (hads_off F' _ q) by (auto; apply seq_NoDup). rewrite (hads_ext (off F' q) (off F q)) by auto.
  rewrite Fq. fold (F q). rewrite wm_op.
  assert (C1 : forall s, hif (isH (tog (xorb (F q) (vtype_eqb ty XSP)) et)) q (hads (off F q) (seq 0 n) s) = hads (off F q) (seq 0 n) (hif (isH (tog (xorb (F q) (vtype_eqb ty XSP)) et)) q s)).
  { apply hads_comm. intros i s Hi Oi. assert (i <> q) by (intros ->; unfold off in Oi; rewrite Nat.eqb_refl in Oi; discriminate).
    unfold hif. destruct (isH _); auto. apply op1_comm; auto. }
  rewrite C1. rewrite (hads_comm (op1 (mP p) q)).
  2:{ intros i s Hi Oi. assert (i <> q) by (intros ->; unfold off in Oi; rewrite Nat.eqb_refl in Oi; discriminate). apply op1_comm; auto. }
  f_equal. unfold nodeop. rewrite !hif_hif, isH_tog, xorb_nilpotent. cbn [hif]. f_equal. unfold F. destruct (isX g (pv m q)), (vtype_eqb ty XSP), (isH et); reflexivity.
Qed.
Lemma nodeop_Z : forall p q s, nodeop false SIMPLE p q s = op1 (mP p) q s.
Proof. reflexivity. Qed.
Lemma nodeop_X : forall p q s, nodeop true SIMPLE p q s = op1 (mXP p) q s.
Proof. intros. unfold nodeop. cbn [hif xorb isH]. rewrite !op1_op1. apply op1_ext. intros i j. rewrite <- mXP_H. unfold mmul. ring. Qed.
Lemma nodeop_H : forall q s, nodeop false HADAMARD 0 q s = op1 mH q s.
Proof. intros. unfold nodeop. cbn [hif xorb isH]. rewrite (op1_ext _ mI) by apply mP_0. apply op1_I. Qed.
Lemma nodeop_0 : forall c q s, nodeop c SIMPLE 0 q s = s.
Proof. intros c q s. unfold nodeop. rewrite (op1_ext (mP 0) mI) by apply mP_0. rewrite op1_I, hif_hif. cbn [isH]. rewrite xorb_false_r, xorb_nilpotent. reflexivity. Qed.

Lemma st_ext : forall n ins g m S S', st n ins g m S -> (forall b, S b = S' b) -> st n ins g m S'.
Proof. intros n ins g m S S' [B A] H. split; auto. intros b. rewrite A, H. reflexivity. Qed.
Lemma st_rows : forall n ins g m m' S, st n ins g m S -> mqubits m' = mqubits m -> mprev m' = mprev m ->
  (forall q, (q < n)%nat -> exists r, dget q (mrows m') = Some r) -> st n ins g m' S.
Proof.
  intros n ins g m m' S [B A] E1 E2 H. split; [eapply bst_rows; eauto|]. intros b.
  assert (P : pv m' = pv m) by (apply functional_extensionality; intros q; unfold pv; rewrite E2; auto). rewrite P. auto.
Qed.
Lemma rows_set : forall n m l r q, (forall q, (q < n)%nat -> exists r, dget q (mrows m) = Some r) -> (q < n)%nat -> exists r', dget q (mrows (set_next_row l r m)) = Some r'.
Proof. intros n m l r q H Hq. unfold set_next_row. simpl. rewrite dget_dset. destruct (Nat.eqb q l); eauto. Qed.
Lemma next_row_ok : forall n ins g m q, bst n ins g m -> (q < n)%nat -> exists r, next_row m q = Ok r.
Proof. intros n ins g m q B Hq. destruct (b_r _ _ _ _ B q Hq) as [r E]. exists r. unfold next_row. rewrite E. reflexivity. Qed.

Lemma phase_st : forall n ins g m S ty t p, st n ins g m S -> (t < n)%nat -> ty = ZSP \/ ty = XSP ->
  exists g' m', phase_to_graph ty t p (g, m) = Ok (g', m') /\ st n ins g' m' (fun b => nodeop (vtype_eqb ty XSP) SIMPLE p t (S b)).
Proof.
  intros n ins g m S ty t p H Ht HT. unfold phase_to_graph. cbn [snd]. destruct (next_row_ok n ins g m t (proj1 H) Ht) as [r Er]. rewrite Er. cbn [bind].
  destruct (node_st n ins g m S t r p SIMPLE ty H Ht HT) as [g' [v [E [H' _]]]]. rewrite E. cbn [bind].
  unfold advance_next_row. change (next_row (set_prev_vertex t v m) t) with (next_row m t). rewrite Er. cbn [bind].
  eexists _, _. split; [reflexivity|]. eapply st_rows; eauto. intros q Hq. apply (rows_set n); auto. apply H'.
Qed.
Lemma had_st : forall n ins g m S t, st n ins g m S -> (t < n)%nat ->
  exists g' m', had_to_graph t (g, m) = Ok (g', m') /\ st n ins g' m' (fun b => op1 mH t (S b)).
Proof.
  intros n ins g m S t H Ht. unfold had_to_graph. destruct (next_row_ok n ins g m t (proj1 H) Ht) as [r Er]. rewrite Er.
  destruct (node_st n ins g m S t r 0%Qc HADAMARD ZSP H Ht (or_introl eq_refl)) as [g' [v [E [H' _]]]].
  unfold graph_add_node in E. unfold to_qubit, prev_vertex in *. rewrite (b_q _ _ _ _ (proj1 H) t Ht) in *. cbn [of_opt bind] in *.
  destruct (add_vertex ZSP (crd t) (crd r) (Some 0%Qc) g) as [g1 v1]. destruct (b_p _ _ _ _ (proj1 H) t Ht) as [Dq _]. rewrite Dq in *. cbn [of_opt bind] in *.
  destruct (add_edge (pv m t) v1 HADAMARD g1) as [g2|]; [|discriminate]. cbn [bind] in *. injection E as E1 E2 E3. subst g2 v1.
  unfold advance_next_row. change (next_row (set_prev_vertex t v m) t) with (next_row m t). rewrite Er. cbn [bind].
  eexists _, _. split; [reflexivity|]. eapply st_ext; [eapply st_rows; eauto|].
  - intros q Hq. apply (rows_set n); auto. apply H'.
  - intros b. apply nodeop_H.
Qed.

(** the phase flip on two qubits *)
Definition czop (c t : nat) (s : state) : state := fun z => sgn (z c && z t) * s z.
Lemma czop_comm : forall c t m q s, q <> c -> q <> t -> czop c t (op1 m q s) = op1 m q (czop c t s).
Proof. intros c t m q s H1 H2. apply state_ext. intros x. unfold czop, op1. rewrite !(upd_other x q _ c), !(upd_other x q _ t) by auto. ring. Qed.
Lemma cz_cnot : forall c t s, c <> t -> hif true t (czop c t (hif true t s)) = gden (GCNOT c t) s.
Proof.
  intros c t s D. apply state_ext. intros x. cbn [hif gden]. unfold op1, czop. rewrite !upd_same, !upd_shadow. rewrite !(upd_other x t _ c) by auto.
  assert (E : forall w, upd x t w = if Bool.eqb (x t) w then x else flip x t).
  { intros w. apply functional_extensionality. intros i. unfold flip, upd. destruct (Nat.eqb_spec i t).
    - subst. destruct (x t) eqn:Ex, w; simpl; rewrite ?Nat.eqb_refl; auto.
    - destruct (Bool.eqb (x t) w); auto. rewrite (proj2 (Nat.eqb_neq i t)); auto. }
  rewrite !E. unfold mH, mk2. assert (I := sq2_sq). destruct (x t), (x c); cbn [andb sgn Bool.eqb xorb]; unfold sgn; field [I]; apply sq2_neq0.
Qed.
Lemma cz_xcx : forall c t s, c <> t -> hif true t (hif true c (czop c t (hif true t (hif true c s)))) = gden (GXCX c t) s.
Proof.
  intros c t s D. rewrite <- (xcx_den c t D). rewrite !cden_cons, cden_nil. rewrite <- (cz_cnot c t) by auto. cbn [hif gden]. apply op1_comm. auto.
Qed.

Lemma two_st : forall n ins g m S tyt tyc et c t, st n ins g m S -> (c < n)%nat -> (t < n)%nat -> c <> t ->
  tyt = ZSP \/ tyt = XSP -> tyc = ZSP \/ tyc = XSP -> tog (xorb (vtype_eqb tyt XSP) (vtype_eqb tyc XSP)) et = HADAMARD ->
  exists g' m', two_to_graph tyt tyc et c t (g, m) = Ok (g', m') /\
    st n ins g' m' (fun b => hif (vtype_eqb tyt XSP) t (hif (vtype_eqb tyc XSP) c (czop c t (hif (vtype_eqb tyt XSP) t (hif (vtype_eqb tyc XSP) c (S b)))))).
Proof.
  intros n ins g m S tyt tyc et c t H Hc Ht D HTt HTc HE. unfold two_to_graph. cbn [snd].
  destruct (next_row_ok n ins g m t (proj1 H) Ht) as [rt Ert]. destruct (next_row_ok n ins g m c (proj1 H) Hc) as [rc Erc].
  rewrite Ert, Erc. cbn [bind]. set (r := Nat.max rt rc).
  destruct (node_st n ins g m S t r 0%Qc SIMPLE tyt H Ht HTt) as [g1 [v1 [E1 [H1 [Fv1 [V1 [T1 [P1 ET1]]]]]]]]. rewrite E1. cbn [bind fst snd].
  set (m1 := set_prev_vertex t v1 m) in *.
  destruct (node_st n ins g1 m1 _ c r 0%Qc SIMPLE tyc H1 Hc HTc) as [g2 [v2 [E2 [H2 [Fv2 [V2 [T2 [P2 ET2]]]]]]]]. rewrite E2. cbn [bind fst snd].
  set (m2 := set_prev_vertex c v2 m1) in *.
  assert (Iv1 : In v1 (vertices g1)) by (rewrite V1, in_app_iff; simpl; auto).
  assert (Dv : v1 <> v2) by (intros ->; contradiction).
  assert (N2 : pv m1 c <> v1). { unfold m1. rewrite pv_set. rewrite (proj2 (Nat.eqb_neq c t)) by auto. intros X. apply Fv1. rewrite <- X. apply (b_p _ _ _ _ (proj1 H)). auto. }
  destruct (bst_edge n ins g2 m2 v1 v2 et (proj1 H2)) as [g3 [E3 [B3 [F3 [P3 [ET3 A3]]]]]]; auto.
  - rewrite V2, in_app_iff. auto.
  - rewrite V2, in_app_iff. simpl. auto.
  - intros X. apply (b_ins _ _ _ _ (proj1 H)) in X. apply Fv1. apply X.
  - intros X. apply (b_ins _ _ _ _ (proj1 H1)) in X. apply Fv2. apply X.
  - rewrite ET2. rewrite pair_hit_false by congruence. apply (edge_none_out g1 v2 v1); auto. apply H1.
  - rewrite E3. cbn [bind]. eexists _, _. split; [reflexivity|].
    eapply st_rows with (m := m2); [|reflexivity|reflexivity|].
    2:{ intros q Hq. apply (rows_set n); auto. intros q' Hq'. apply (rows_set n); auto. apply B3. }
    split; [apply bst_power; auto|]. intros b. apply state_ext. intros z. rewrite amp_power.
    assert (It : In t (seq 0 n)) by (apply in_seq; lia). assert (Ic : In c (seq 0 n)) by (apply in_seq; lia).
    assert (X1 : pv m2 t = v1) by (unfold m2, m1; rewrite !pv_set, Nat.eqb_refl, (proj2 (Nat.eqb_neq t c)); auto).
    assert (X2 : pv m2 c = v2) by (unfold m2; rewrite pv_set, Nat.eqb_refl; auto).
    rewrite (A3 (seq 0 n) (pv m2) t c b z It Ic X1 X2).
    assert (Y1 : isX g2 v1 = vtype_eqb tyt XSP) by (unfold isX; rewrite T2, (proj2 (Nat.eqb_neq v1 v2)) by auto; rewrite T1, Nat.eqb_refl; auto).
    assert (Y2 : isX g2 v2 = vtype_eqb tyc XSP) by (unfold isX; rewrite T2, Nat.eqb_refl; auto).
    rewrite Y1, Y2, HE.
    rewrite (proj2 H2 b). set (F := fun q => isX g2 (pv m2 q)).
    transitivity (czop c t (hads F (seq 0 n) (S b)) z).
    { unfold czop, wt. rewrite !nodeop_0. rewrite (andb_comm (z t)). 
      transitivity ((sq2p 1 * sq2p (-1)) * (sgn (z c && z t) * hads F (seq 0 n) (S b) z)); [ring|]. rewrite <- sq2p_add. change (1 + -1)%Z with 0%Z. rewrite sq2p_0. ring. }
    assert (Z : forall q, isX (on_scalar (s_add_power 1) g3) (pv m2 q) = F q) by (intros q; unfold F; change (isX g3 (pv m2 q) = isX g2 (pv m2 q)); apply same_frame_isX; auto).
    rewrite (hads_ext (fun q => isX (on_scalar (s_add_power 1) g3) (pv (set_next_row c (r + 1) (set_next_row t (r + 1) m2)) q)) F) by (intros q _; apply Z).
    assert (Ft : F t = vtype_eqb tyt XSP) by (unfold F; rewrite X1; auto).
    assert (Fc : off F t c = vtype_eqb tyc XSP) by (unfold off, F; rewrite (proj2 (Nat.eqb_neq c t)) by auto; rewrite X2; auto).
    assert (SP : forall s, hads F (seq 0 n) s = hads (off (off F t) c) (seq 0 n) (hif (vtype_eqb tyc XSP) c (hif (vtype_eqb tyt XSP) t s))).
    { intros s. rewrite (hads_off F _ t) by (auto; apply seq_NoDup). rewrite (hads_off (off F t) _ c) by (auto; apply seq_NoDup). rewrite Ft, Fc. reflexivity. }
    assert (CM : forall a d s, hif a t (hif d c s) = hif d c (hif a t s)) by (intros [] [] s; auto; cbn [hif]; apply op1_comm; auto).
    rewrite !SP. rewrite (hads_comm (czop c t)).
    + f_equal. rewrite !CM. rewrite !hif_hif, !xorb_nilpotent. cbn [hif]. reflexivity.
    + intros q s _ Oq. apply czop_comm.
      * intros ->. unfold off in Oq. rewrite Nat.eqb_refl in Oq. discriminate.
      * intros ->. unfold off in Oq. rewrite Nat.eqb_refl in Oq. destruct (Nat.eqb t c); discriminate.
Qed.

(** ** FSim *)
Lemma bst_prev : forall n ins g m q v, bst n ins g m -> (q < n)%nat -> In v (vertices g) -> ~ In v ins -> ~ In (pv m q) ins ->
  (forall i, (i < n)%nat -> pv m i <> v) -> bst n ins g (set_prev_vertex q v m).
Proof.
  intros n ins g m q v B Hq Iv Nv Nq F. destruct B. constructor; auto.
  - intros i Hi. rewrite pv_set. unfold set_prev_vertex. cbn [mprev]. rewrite dget_dset. destruct (Nat.eqb i q); auto.
  - intros i j Hi Hj. rewrite !pv_set. destruct (Nat.eqb_spec i q), (Nat.eqb_spec j q); subst; auto; intros Y; exfalso; [apply (F j)|apply (F i)]; auto.
  - intros b Hb. destruct (b_deg0 b Hb) as [[k [H1 [H2 H3]]]|[H1 H2]].
    + left. exists k. split; auto. split; auto. rewrite pv_set. destruct (Nat.eqb_spec k q); auto. subst. contradiction.
    + right. split; auto. intros k Hk. rewrite pv_set. destruct (Nat.eqb k q); auto. intros ->. contradiction.
Qed.
Lemma fsim_gadget : forall phi zc zt (a : bool -> bool -> C),
  let H := wt (Some HADAMARD) in
  let f w0 w1 := sq2p 1 * (H w0 w1 * (H zt w0 * (H zc w0 * (ephase (frac 1 2 * phi - frac 1 2) w1 * (ephase (frac (-1) 2 * phi) zt * (ephase (frac (-1) 2 * phi) zc)))))) in
  f false false + f true false + (f false true + f true true) =
  if Bool.eqb zc zt then (if zc then cexp (- phi) else C1) else - Ci.
Proof.
  intros phi zc zt a H f. unfold f, H, wt. 
  assert (E1 : cexp (frac 1 2 * phi - frac 1 2)%Qc = cexp (half phi) * - Ci).
  { unfold Qcminus. rewrite cexp_add, cexp_inv, cexp_12, Ci_inv. do 2 f_equal. unfold half. ring. }
  assert (E2 : cexp (frac (-1) 2 * phi)%Qc = / cexp (half phi)).
  { rewrite <- cexp_inv. f_equal. unfold half. replace (frac (-1) 2) with (- frac 1 2)%Qc by qcomp. ring. }
  assert (E3 : cexp (- phi) = / cexp (half phi) * / cexp (half phi)).
  { rewrite cexp_inv, (cexp_half_add phi). field. apply cexp_neq0. }
  assert (Q := sq2_sq). assert (N := cexp_neq0 (half phi)). 
  unfold ephase. rewrite E1, E2, E3, sq2p_m1, sq2p_1. generalize dependent (cexp (half phi)). intros w _ _ _ W.
  destruct zc, zt; cbn [andb Bool.eqb]; unfold sgn; field [Q]; nz; auto.
Qed.
Lemma fsim_comm : forall c t phi q s, q <> c -> q <> t -> gden (GFSim c t (frac 1 2) phi) (op1 mH q s) = op1 mH q (gden (GFSim c t (frac 1 2) phi) s).
Proof.
  intros c t phi q s H1 H2. apply state_ext. intros x. cbn [gden]. unfold op1, swapq.
  rewrite ?(upd_other _ q _ c), ?(upd_other _ q _ t) by auto. rewrite !(upd_other _ t _ q), !(upd_other _ c _ q) by auto.
  rewrite !(upd_comm _ t q), !(upd_comm _ c q) by auto. destruct (Bool.eqb (x c) (x t)); ring.
Qed.
Lemma fsim_val : forall c t phi s z, gden (GFSim c t (frac 1 2) phi) s z =
  if Bool.eqb (z c) (z t) then (if z c then cexp (- phi) else C1) * s z else - Ci * s (swapq z c t).
Proof.
  intros. cbn [gden]. destruct (Bool.eqb (z c) (z t)); auto.
  assert (E : cosh_ (frac 1 2 + frac 1 2) = C0 /\ sinh_ (frac 1 2 + frac 1 2) = C1).
  { rewrite cos_exp, sin_exp. replace (half (frac 1 2 + frac 1 2)) with (frac 1 2) by qcomp. rewrite cexp_12, Ci_inv.
    assert (I := Ci2). split; field [I]; nz. }
  destruct E as [-> ->]. ring.
Qed.
Lemma newv : forall n ins g m q r, bst n ins g m -> exists g' v, add_vertex ZSP q r (Some 0%Qc) g = (g', v) /\ bst n ins g' m /\
  ~ In v (vertices g) /\ vertices g' = vertices g ++ [v] /\ (forall u, vty g' u = if Nat.eqb u v then ZSP else vty g u) /\
  (forall u, phase g' u = if Nat.eqb u v then 0%Qc else phase g u) /\ (forall u w, edge_type g' u w = edge_type g u w) /\
  (forall L P l b z, (forall i, In i L -> In (P i) (vertices g)) -> ~ In l L -> P l = v -> amp (l :: L) P g' b z = amp L P g b z).
Proof.
  intros n ins g m q r B. destruct (add_vertex ZSP q r (Some 0%Qc) g) as [g' v] eqn:E. exists g', v. split; auto.
  assert (B' := bst_vertex _ _ _ _ _ _ _ _ _ _ B (or_introl eq_refl) E).
  destruct (add_vertex_spec _ _ _ _ _ _ _ (b_wf _ _ _ _ B) E) as [Ev [W' [V [ET [_ [T [P [I [O S]]]]]]]]].
  assert (Fv := vertices_pv_fresh g v (b_wf _ _ _ _ B) Ev). split; auto. split; auto. split; auto. split; auto. split.
  { intros u. rewrite P, qmod2_0. auto. } split; auto.
  intros L Pf l b z HP Nl El. rewrite (amp_vertex _ _ _ _ _ _ _ L Pf l b z (b_wf _ _ _ _ B) E) by (auto; discriminate). rewrite ephase_0. ring.
Qed.
Lemma isX_Z : forall g v, vty g v = ZSP -> isX g v = false.
Proof. intros g v H. unfold isX. rewrite H. reflexivity. Qed.
Lemma isB_Z : forall g v, vty g v = ZSP -> isB g v = false.
Proof. intros g v H. unfold isB. rewrite H. reflexivity. Qed.
Lemma none_fresh : forall n ins g m v w, bst n ins g m -> ~ In v (vertices g) -> edge_type g v w = None /\ edge_type g w v = None.
Proof. intros. apply edge_none_out; auto. eapply b_wf; eauto. Qed.
Lemma ph_frame : forall g v p, same_frame g (set_phase v p g).
Proof. intros. apply set_phase_frame. Qed.
Lemma seq_two : forall n c t, (c < n)%nat -> (t < n)%nat -> c <> t -> exists L0, Permutation (seq 0 n) (c :: t :: L0) /\ ~ In c L0 /\ ~ In t L0 /\ forall i, In i L0 -> (i < n)%nat.
Proof.
  intros n c t Hc Ht D. exists (filter (fun i => negb (Nat.eqb i c) && negb (Nat.eqb i t)) (seq 0 n)).
  assert (Nc : ~ In c (filter (fun i => negb (Nat.eqb i c) && negb (Nat.eqb i t)) (seq 0 n))) by (rewrite filter_In, Nat.eqb_refl; simpl; intuition congruence).
  assert (Nt : ~ In t (filter (fun i => negb (Nat.eqb i c) && negb (Nat.eqb i t)) (seq 0 n))) by (rewrite filter_In, Nat.eqb_refl, andb_false_r; intuition congruence).
  split; [|split; auto; split; auto; intros i; rewrite filter_In, in_seq; lia].
  apply nodup_same_perm; [apply seq_NoDup|constructor; [intros [X|X]; [congruence|auto]|constructor; auto; apply NoDup_filter, seq_NoDup]|].
  intros a. simpl. rewrite filter_In, in_seq. destruct (Nat.eqb_spec a c), (Nat.eqb_spec a t); subst; simpl; intuition; try lia.
Qed.

Lemma fsim_st : forall n ins g m S c t phi, st n ins g m S -> (c < n)%nat -> (t < n)%nat -> c <> t ->
  exists g' m', fsim_to_graph c t phi (g, m) = Ok (g', m') /\ st n ins g' m' (fun b => gden (GFSim c t (frac 1 2) phi) (S b)).
Proof.
  intros n ins g m S c t phi H Hc Ht D. unfold fsim_to_graph. cbn [snd].
  destruct (next_row_ok n ins g m t (proj1 H) Ht) as [rt Ert]. destruct (next_row_ok n ins g m c (proj1 H) Hc) as [rc Erc].
  rewrite Ert, Erc. cbn [bind]. set (r := Nat.max rt rc).
  destruct (node_st n ins g m S c r 0%Qc SIMPLE ZSP H Hc (or_introl eq_refl)) as [g1 [c0 [E1 [H1 [Fc0 [V1 [T1 [P1 ET1]]]]]]]]. rewrite E1. cbn [bind fst snd].
  set (m1 := set_prev_vertex c c0 m) in *.
  destruct (node_st n ins g1 m1 _ t r 0%Qc SIMPLE ZSP H1 Ht (or_introl eq_refl)) as [g2 [t0 [E2 [H2 [Ft0 [V2 [T2 [P2 ET2]]]]]]]]. rewrite E2. cbn [bind fst snd].
  set (m2 := set_prev_vertex t t0 m1) in *. destruct H2 as [B2 A2].
  assert (Ic0 : In c0 (vertices g2)) by (rewrite V2, V1, !in_app_iff; simpl; auto).
  assert (It0 : In t0 (vertices g2)) by (rewrite V2, !in_app_iff; simpl; auto).
  assert (Dct : c0 <> t0) by (intros ->; apply Ft0; rewrite V1, in_app_iff; simpl; auto).
  assert (Tc0 : vty g2 c0 = ZSP) by (rewrite T2, (proj2 (Nat.eqb_neq c0 t0)), T1, Nat.eqb_refl by auto; auto).
  assert (Tt0 : vty g2 t0 = ZSP) by (rewrite T2, Nat.eqb_refl; auto).
  assert (NI : forall g' m' v, bst n ins g' m' -> vty g' v = ZSP -> ~ In v ins).
  { intros g' m' v B T X. apply (b_ins _ _ _ _ B) in X. destruct X as [_ X]. congruence. }
  assert (Pc : pv m2 c = c0) by (unfold m2, m1; rewrite !pv_set, Nat.eqb_refl, (proj2 (Nat.eqb_neq c t)); auto).
  assert (Pt : pv m2 t = t0) by (unfold m2; rewrite pv_set, Nat.eqb_refl; auto).
  (* the two vertices after the crossing *)
  destruct (newv n ins g2 m2 (crd c) (crd (r + 1)) B2) as [g3 [cv [E3 [B3 [F3 [V3 [T3 [P3 [ET3 A3]]]]]]]]]. rewrite E3.
  destruct (newv n ins g3 m2 (crd t) (crd (r + 1)) B3) as [g4 [tv [E4 [B4 [F4 [V4 [T4 [P4 [ET4 A4]]]]]]]]]. rewrite E4.
  assert (Icv : In cv (vertices g3)) by (rewrite V3, in_app_iff; simpl; auto).
  assert (Dcvtv : cv <> tv) by (intros ->; contradiction).
  assert (O3 : forall u, In u (vertices g2) -> u <> cv) by (intros u Hu ->; contradiction).
  assert (I3 : forall u, In u (vertices g2) -> In u (vertices g3)) by (intros u Hu; rewrite V3, in_app_iff; auto).
  assert (O4 : forall u, In u (vertices g3) -> u <> tv) by (intros u Hu ->; contradiction).
  assert (I4 : forall u, In u (vertices g3) -> In u (vertices g4)) by (intros u Hu; rewrite V4, in_app_iff; auto).
  assert (Itv : In tv (vertices g4)) by (rewrite V4, in_app_iff; simpl; auto).
  assert (T4z : forall u, In u (vertices g2) -> vty g4 u = vty g2 u).
  { intros u Hu. rewrite T4, (proj2 (Nat.eqb_neq u tv)), T3, (proj2 (Nat.eqb_neq u cv)) by auto. auto. }
  assert (Tcv4 : vty g4 cv = ZSP) by (rewrite T4, (proj2 (Nat.eqb_neq cv tv)), T3, Nat.eqb_refl by auto; auto).
  assert (Ttv4 : vty g4 tv = ZSP) by (rewrite T4, Nat.eqb_refl; auto).
  assert (ET42 : forall u w, edge_type g4 u w = edge_type g2 u w) by (intros; rewrite ET4, ET3; auto).
  assert (Ntv : forall w, edge_type g4 tv w = None /\ edge_type g4 w tv = None) by (intros w; rewrite !ET4; eapply none_fresh; eauto).
  assert (Ncv : forall w, edge_type g4 cv w = None /\ edge_type g4 w cv = None) by (intros w; rewrite !ET42; eapply none_fresh; eauto).
  destruct (bst_edge n ins g4 m2 c0 tv SIMPLE B4) as [g5 [E5 [B5 [F5 [P5 [ET5 A5]]]]]]; auto.
  { apply (NI g4 m2); auto. rewrite T4z; auto. } { apply (NI g4 m2); auto. } { apply Ntv. }
  rewrite E5. cbn [bind].
  assert (V54 : vertices g5 = vertices g4) by apply F5. assert (T54 := fun u => same_frame_vty g4 g5 u F5).
  destruct (bst_edge n ins g5 m2 t0 cv SIMPLE B5) as [g6 [E6 [B6 [F6 [P6 [ET6 A6]]]]]]; auto.
  { rewrite V54; auto. } { rewrite V54; auto. } { apply (NI g4 m2); auto. rewrite T4z; auto. } { apply (NI g4 m2); auto. }
  { rewrite ET5, pair_hit_false by (intros X; injection X as X1 X2; congruence). apply Ncv. }
  rewrite E6. cbn [bind].
  assert (V64 : vertices g6 = vertices g4) by (rewrite <- V54; apply F6). assert (T64 : forall u, vty g6 u = vty g4 u) by (intros u; rewrite <- T54; apply same_frame_vty; auto).
  (* the new ends *)
  assert (NPc : forall i, (i < n)%nat -> pv m2 i <> cv) by (intros i Hi; apply O3; apply (b_p _ _ _ _ B2); auto).
  assert (NPt : forall i, (i < n)%nat -> pv m2 i <> tv) by (intros i Hi; apply O4, I3; apply (b_p _ _ _ _ B2); auto).
  assert (B6c : bst n ins g6 (set_prev_vertex c cv m2)).
  { apply bst_prev; auto; [rewrite V64; auto|apply (NI g4 m2); auto|rewrite Pc; apply (NI g4 m2); auto; rewrite T4z; auto]. }
  set (m3 := set_prev_vertex t tv (set_prev_vertex c cv m2)).
  assert (B6t : bst n ins g6 m3).
  { apply bst_prev; auto; [rewrite V64; auto|apply (NI g4 m2); auto| |].
    - rewrite pv_set, (proj2 (Nat.eqb_neq t c)), Pt by auto. apply (NI g4 m2); auto; rewrite T4z; auto.
    - intros i Hi. rewrite pv_set. destruct (Nat.eqb i c); auto. }
  destruct (newv n ins g6 m3 (crd (Nat.min t c) + frac 1 2)%Qc (crd (r + 2)) B6t) as [g7 [pg0 [E7 [B7 [F7 [V7 [T7 [P7 [ET7 A7]]]]]]]]]. rewrite E7.
  destruct (newv n ins g7 m3 (crd (Nat.min t c) + frac 1 2)%Qc (crd (r + 3)) B7) as [g8 [pg1 [E8 [B8 [F8 [V8 [T8 [P8 [ET8 A8]]]]]]]]]. rewrite E8.
  assert (O7 : forall u, In u (vertices g4) -> u <> pg0) by (intros u Hu ->; rewrite <- V64 in Hu; contradiction).
  assert (I7 : forall u, In u (vertices g4) -> In u (vertices g7)) by (intros u Hu; rewrite V7, V64, in_app_iff; auto).
  assert (O8 : forall u, In u (vertices g7) -> u <> pg1) by (intros u Hu ->; contradiction).
  assert (I8 : forall u, In u (vertices g7) -> In u (vertices g8)) by (intros u Hu; rewrite V8, in_app_iff; auto).
  assert (Ip0 : In pg0 (vertices g7)) by (rewrite V7, in_app_iff; simpl; auto).
  assert (Ip1 : In pg1 (vertices g8)) by (rewrite V8, in_app_iff; simpl; auto).
  assert (Dp : pg0 <> pg1) by auto.
  assert (T8o : forall u, In u (vertices g4) -> vty g8 u = vty g4 u).
  { intros u Hu. rewrite T8, (proj2 (Nat.eqb_neq u pg1)), T7, (proj2 (Nat.eqb_neq u pg0)) by auto. auto. }
  assert (Tp0 : vty g8 pg0 = ZSP) by (rewrite T8, (proj2 (Nat.eqb_neq pg0 pg1)), T7, Nat.eqb_refl by auto; auto).
  assert (Tp1 : vty g8 pg1 = ZSP) by (rewrite T8, Nat.eqb_refl; auto).
  assert (Tcv8 : vty g8 cv = ZSP) by (rewrite T8o; auto). assert (Ttv8 : vty g8 tv = ZSP) by (rewrite T8o; auto).
  assert (Np1 : forall w, edge_type g8 pg1 w = None /\ edge_type g8 w pg1 = None) by (intros w; rewrite !ET8; eapply none_fresh; eauto).
  assert (Np0 : forall w, edge_type g8 pg0 w = None /\ edge_type g8 w pg0 = None) by (intros w; rewrite !ET8, !ET7; eapply none_fresh; eauto).
  assert (Pcv8 : phase g8 cv = 0%Qc).
  { rewrite P8, (proj2 (Nat.eqb_neq cv pg1)), P7, (proj2 (Nat.eqb_neq cv pg0)), P6, P5, P4, (proj2 (Nat.eqb_neq cv tv)), P3, Nat.eqb_refl by auto. auto. }
  assert (Ptv8 : phase g8 tv = 0%Qc).
  { rewrite P8, (proj2 (Nat.eqb_neq tv pg1)), P7, (proj2 (Nat.eqb_neq tv pg0)), P6, P5, P4, Nat.eqb_refl by auto. auto. }
  assert (Pp1 : phase g8 pg1 = 0%Qc) by (rewrite P8, Nat.eqb_refl; auto).
  assert (Icv8 : In cv (vertices g8)) by auto. assert (Itv8 : In tv (vertices g8)) by auto. assert (Ip08 : In pg0 (vertices g8)) by auto.
  assert (NIc := NI g8 m3 cv B8 Tcv8). assert (NIt := NI g8 m3 tv B8 Ttv8). assert (NI0 := NI g8 m3 pg0 B8 Tp0). assert (NI1 := NI g8 m3 pg1 B8 Tp1).
  (* phases *)
  set (g9 := set_phase cv (frac (-1) 2 * phi)%Qc g8). set (g10 := set_phase tv (frac (-1) 2 * phi)%Qc g9). set (g11 := set_phase pg1 (frac 1 2 * phi - frac 1 2)%Qc g10).
  assert (B9 : bst n ins g9 m3) by (apply bst_set_phase; auto).
  assert (B10 : bst n ins g10 m3) by (apply bst_set_phase; auto).
  assert (B11 : bst n ins g11 m3) by (apply bst_set_phase; auto).
  (* the gadget *)
  assert (X12 : edge_type g11 cv pg0 = None) by apply Np0.
  destruct (bst_edge n ins g11 m3 cv pg0 HADAMARD B11 (O7 cv (I4 cv Icv)) Icv8 Ip08 NIc NI0 X12) as [g12 [E12 [B12 [F12 [_ [ET12 A12]]]]]].
  rewrite E12. cbn [bind].
  assert (V12 : vertices g12 = vertices g8) by apply F12. assert (T12 : forall u, vty g12 u = vty g8 u) by (intros u; apply (same_frame_vty g11 g12 u F12)).
  assert (DD1 := O7 tv Itv). assert (DD2 := O8 tv (I7 tv Itv)). assert (DD3 := O7 cv (I4 cv Icv)). assert (DD4 := O8 cv (I7 cv (I4 cv Icv))).
  assert (X13 : edge_type g12 tv pg0 = None) by (rewrite ET12, pair_hit_false by congruence; apply Np0).
  assert (Itv12 : In tv (vertices g12)) by (rewrite V12; auto). assert (Ip12 : In pg0 (vertices g12)) by (rewrite V12; auto).
  destruct (bst_edge n ins g12 m3 tv pg0 HADAMARD B12 (O7 tv Itv) Itv12 Ip12 NIt NI0 X13) as [g13 [E13 [B13 [F13 [_ [ET13 A13]]]]]].
  rewrite E13. cbn [bind].
  assert (V13 : vertices g13 = vertices g8) by (rewrite <- V12; apply F13). assert (T13 : forall u, vty g13 u = vty g8 u) by (intros u; rewrite <- T12; apply (same_frame_vty g12 g13 u F13)).
  assert (X14 : edge_type g13 pg0 pg1 = None) by (rewrite ET13, pair_hit_false by congruence; rewrite ET12, pair_hit_false by congruence; apply Np1).
  assert (Ip13 : In pg0 (vertices g13)) by (rewrite V13; auto). assert (Iq13 : In pg1 (vertices g13)) by (rewrite V13; auto).
  destruct (bst_edge n ins g13 m3 pg0 pg1 HADAMARD B13 Dp Ip13 Iq13 NI0 NI1 X14) as [g14 [E14 [B14 [F14 [_ [ET14 A14]]]]]].
  rewrite E14. cbn [bind]. eexists _, _. split; [reflexivity|].
  apply (st_rows n ins _ m3); [|reflexivity|reflexivity|].
  2:{ intros q Hq. destruct (b_r _ _ _ _ B14 q Hq) as [r' Er']. unfold shift_all_rows. cbn [mrows].
      exists (r' + 4)%nat. clear - Er'. induction (mrows m3) as [|[k w] d IH]; [discriminate|]. simpl in *. destruct (Nat.eqb q k); auto. congruence. }
  split; [apply bst_power; auto|]. intros b. apply state_ext. intros z. rewrite amp_power.
  set (P := fun i => if Nat.eqb i n then cv else if Nat.eqb i (n + 1) then tv else if Nat.eqb i (n + 2) then pg0 else if Nat.eqb i (n + 3) then pg1 else pv m2 i).
  destruct (seq_two n c t Hc Ht D) as [L0 [HP [Nc0 [Nt0 Ln]]]].
  assert (Q0 : P n = cv) by (unfold P; rewrite Nat.eqb_refl; auto).
  assert (Q1 : P (n + 1)%nat = tv) by (unfold P; rewrite (proj2 (Nat.eqb_neq (n + 1) n)), Nat.eqb_refl by lia; auto).
  assert (Q2 : P (n + 2)%nat = pg0) by (unfold P; rewrite (proj2 (Nat.eqb_neq (n + 2) n)), (proj2 (Nat.eqb_neq (n + 2) (n + 1))), Nat.eqb_refl by lia; auto).
  assert (Q3 : P (n + 3)%nat = pg1) by (unfold P; rewrite (proj2 (Nat.eqb_neq (n + 3) n)), (proj2 (Nat.eqb_neq (n + 3) (n + 1))), (proj2 (Nat.eqb_neq (n + 3) (n + 2))), Nat.eqb_refl by lia; auto).
  assert (QL : forall i, (i < n)%nat -> P i = pv m2 i).
  { intros i Hi. unfold P. rewrite (proj2 (Nat.eqb_neq i n)), (proj2 (Nat.eqb_neq i (n + 1))), (proj2 (Nat.eqb_neq i (n + 2))), (proj2 (Nat.eqb_neq i (n + 3))) by lia. auto. }
  assert (VL : forall i, In i (seq 0 n) -> In (P i) (vertices g2)) by (intros i Hi; apply in_seq in Hi; rewrite QL by lia; apply (b_p _ _ _ _ B2); lia).
  set (L4 := (n + 3 :: n + 2 :: n + 1 :: n :: seq 0 n)%nat).
  assert (ML : forall i, (i < n)%nat -> In i L4) by (intros i Hi; unfold L4; simpl; rewrite in_seq; lia).
  assert (STEP : forall y, sq2p 1 * amp L4 P g14 b y = sq2p 1 * (wt (Some HADAMARD) (y (n + 2)%nat) (y (n + 3)%nat) * (wt (Some HADAMARD) (y (n + 1)%nat) (y (n + 2)%nat) * (wt (Some HADAMARD) (y n) (y (n + 2)%nat) *
      (ephase (frac 1 2 * phi - frac 1 2) (y (n + 3)%nat) * (ephase (frac (-1) 2 * phi) (y (n + 1)%nat) * (ephase (frac (-1) 2 * phi) (y n))))))) *
      (dlt (y t) (y n) * dlt (y c) (y (n + 1)%nat) * amp (seq 0 n) (pv m2) g2 b y)).
  { intros y. rewrite (A14 L4 P (n + 2)%nat (n + 3)%nat b y) by (auto; unfold L4; simpl; auto).
    rewrite (A13 L4 P (n + 1)%nat (n + 2)%nat b y) by (auto; unfold L4; simpl; auto).
    rewrite (A12 L4 P n (n + 2)%nat b y) by (auto; unfold L4; simpl; auto).
    rewrite (isX_Z g13 pg0), (isX_Z g13 pg1) by (rewrite T13; auto). rewrite (isX_Z g12 tv), (isX_Z g12 pg0) by (rewrite T12; auto).
    rewrite (isX_Z g11 cv), (isX_Z g11 pg0) by auto. cbn [xorb tog].
    unfold g11. rewrite (amp_phase pg1 (frac 1 2 * phi - frac 1 2)%Qc g10 L4 P (n + 3)%nat b y (b_wf _ _ _ _ B10)); auto; [|unfold g10, g9; rewrite !phase_set_phase, (proj2 (Nat.eqb_neq pg1 tv)), (proj2 (Nat.eqb_neq pg1 cv)); auto|apply isB_Z; auto|unfold L4; simpl; auto].
    unfold g10. rewrite (amp_phase tv (frac (-1) 2 * phi)%Qc g9 L4 P (n + 1)%nat b y (b_wf _ _ _ _ B9)); auto; [|unfold g9; rewrite phase_set_phase, (proj2 (Nat.eqb_neq tv cv)); auto|apply isB_Z; auto|unfold L4; simpl; auto].
    unfold g9. rewrite (amp_phase cv (frac (-1) 2 * phi)%Qc g8 L4 P n b y (b_wf _ _ _ _ B8)); auto; [|apply isB_Z; auto|unfold L4; simpl; auto].
    unfold L4. rewrite A8; auto.
    2:{ intros i Hi. destruct Hi as [<-|[<-|[<-|Hi]]]; [rewrite Q2; auto|rewrite Q1; auto|rewrite Q0; auto|]. apply I7, I4, I3, VL; auto. }
    2:{ simpl. rewrite in_seq. lia. }
    rewrite A7; auto.
    2:{ intros i Hi. rewrite V64. destruct Hi as [<-|[<-|Hi]]; [rewrite Q1; auto|rewrite Q0; auto|]. apply I4, I3, VL; auto. }
    2:{ simpl. rewrite in_seq. lia. }
    rewrite (A6 (n + 1 :: n :: seq 0 n)%nat P t n b y); [|simpl; rewrite in_seq; lia|simpl; auto|rewrite QL; auto|auto].
    rewrite (A5 (n + 1 :: n :: seq 0 n)%nat P c (n + 1)%nat b y); [|simpl; rewrite in_seq; lia|simpl; auto|rewrite QL; auto|auto].
    rewrite (isX_Z g5 t0), (isX_Z g5 cv) by (rewrite T54; auto; rewrite T4z; auto). rewrite (isX_Z g4 c0), (isX_Z g4 tv) by (auto; rewrite T4z; auto). cbn [xorb tog wt].
    rewrite A4; auto.
    2:{ intros i Hi. destruct Hi as [<-|Hi]; [rewrite Q0; auto|]. apply I3, VL; auto. }
    2:{ simpl. rewrite in_seq. lia. }
    rewrite A3; auto.
    2:{ rewrite in_seq. lia. }
    rewrite (amp_ext (seq 0 n) P (pv m2) g2 b y y) by (intros i Hi; apply in_seq in Hi; split; auto; apply QL; lia). ring. }
  (* close and rename *)
  set (P' := fun i => if Nat.eqb i t then P (n + 1)%nat else P i).
  rewrite (amp_perm _ _ _ _ _ _ HP).
  rewrite (amp_ext (c :: t :: L0) (pv m3) (fun i => if Nat.eqb i c then P' n else P' i) g14 b z z).
  2:{ intros i Hi. split; auto. unfold m3. rewrite !pv_set. unfold P'. rewrite (proj2 (Nat.eqb_neq n t)) by lia. rewrite Q0, Q1.
      destruct (Nat.eqb_spec i t) as [->|Nit].
      - rewrite (proj2 (Nat.eqb_neq t c)); auto.
      - destruct (Nat.eqb_spec i c); auto. rewrite QL; auto. destruct Hi as [X|[X|Hi]]; try congruence. apply Ln; auto. }
  rewrite amp_rename; [|intros [X|X]; [congruence|contradiction]|intros [X|X]; [lia|apply Ln in X; lia]].
  rewrite (amp_perm (n :: t :: L0) (t :: n :: L0)) by apply perm_swap.
  rewrite (amp_ext (t :: n :: L0) P' (fun i => if Nat.eqb i t then P (n + 1)%nat else P i) g14 b (upd z n (z c)) (upd z n (z c))) by auto.
  rewrite (amp_rename t (n + 1)%nat); [|intros [X|X]; [lia|contradiction]|intros [X|X]; [lia|apply Ln in X; lia]].
  rewrite (upd_other z n (z c) t) by lia. set (y0 := upd (upd z n (z c)) (n + 1) (z t)).
  rewrite (amp_close (n + 2)%nat) by (intros [X|[X|X]]; try lia; apply Ln in X; lia).
  rewrite !(amp_close (n + 3)%nat (n + 2 :: n + 1 :: n :: L0)%nat) by (intros [X|[X|[X|X]]]; try lia; apply Ln in X; lia).
  rewrite !(amp_close t (n + 3 :: n + 2 :: n + 1 :: n :: L0)%nat) by (intros [X|[X|[X|[X|X]]]]; try lia; contradiction).
  rewrite !(amp_close c (t :: n + 3 :: n + 2 :: n + 1 :: n :: L0)%nat) by (intros [X|[X|[X|[X|[X|X]]]]]; try lia; contradiction).
  assert (HP4 : Permutation (c :: t :: n + 3 :: n + 2 :: n + 1 :: n :: L0)%nat L4).
  { unfold L4. apply (Permutation_trans (l' := (n + 3 :: n + 2 :: n + 1 :: n :: c :: t :: L0)%nat)).
    - apply (Permutation_trans (l' := (c :: n + 3 :: n + 2 :: n + 1 :: n :: t :: L0)%nat)).
      + constructor. apply (Permutation_middle [n + 3; n + 2; n + 1; n]%nat L0 t).
      + apply (Permutation_middle [n + 3; n + 2; n + 1; n]%nat (t :: L0) c).
    - do 4 constructor. symmetry; auto. }
  rewrite !(amp_perm _ _ _ _ _ _ HP4).
  set (a := fun w1 w2 => amp (seq 0 n) (pv m2) g2 b (upd (upd z c w1) t w2)).
  assert (VAL : forall w0 w1 wt_ wc, sq2p 1 * amp L4 P g14 b (upd (upd (upd (upd y0 (n + 2) w0) (n + 3) w1) t wt_) c wc) =
     sq2p 1 * (wt (Some HADAMARD) w0 w1 * (wt (Some HADAMARD) (z t) w0 * (wt (Some HADAMARD) (z c) w0 *
      (ephase (frac 1 2 * phi - frac 1 2) w1 * (ephase (frac (-1) 2 * phi) (z t) * (ephase (frac (-1) 2 * phi) (z c))))))) * (dlt wt_ (z c) * dlt wc (z t) * a wc wt_)).
  { intros w0 w1 wt_ wc. rewrite STEP. set (y := upd (upd (upd (upd y0 (n + 2) w0) (n + 3) w1) t wt_) c wc).
    assert (Y2 : y (n + 2)%nat = w0) by (unfold y; rewrite (upd_other _ c), (upd_other _ t), (upd_other _ (n + 3)), upd_same by lia; auto).
    assert (Y3 : y (n + 3)%nat = w1) by (unfold y; rewrite (upd_other _ c), (upd_other _ t), upd_same by lia; auto).
    assert (Y1 : y (n + 1)%nat = z t) by (unfold y, y0; rewrite (upd_other _ c), (upd_other _ t), (upd_other _ (n + 3)), (upd_other _ (n + 2)), upd_same by lia; auto).
    assert (Y0 : y n = z c) by (unfold y, y0; rewrite (upd_other _ c), (upd_other _ t), (upd_other _ (n + 3)), (upd_other _ (n + 2)), (upd_other _ (n + 1)), upd_same by lia; auto).
    assert (Yt : y t = wt_) by (unfold y; rewrite (upd_other _ c), upd_same by lia; auto).
    assert (Yc : y c = wc) by (unfold y; rewrite upd_same by lia; auto).
    rewrite Y0, Y1, Y2, Y3, Yt, Yc. do 2 f_equal. apply amp_ext. intros i Hi. apply in_seq in Hi. split; auto. unfold y, y0, upd.
    destruct (Nat.eqb_spec i c) as [->|Nic].
    - rewrite (proj2 (Nat.eqb_neq c t)) by auto. rewrite ?Nat.eqb_refl. auto.
    - destruct (Nat.eqb_spec i t); auto. rewrite (proj2 (Nat.eqb_neq i (n + 3))), (proj2 (Nat.eqb_neq i (n + 2))), (proj2 (Nat.eqb_neq i (n + 1))), (proj2 (Nat.eqb_neq i n)) by lia. auto. }
  assert (DIST : forall u1 u2 u3 u4 u5 u6 u7 u8 u9 u10 u11 u12 u13 u14 u15 u16 : C, sq2p 1 * (((u1 + u2) + (u3 + u4) + ((u5 + u6) + (u7 + u8))) + (((u9 + u10) + (u11 + u12)) + ((u13 + u14) + (u15 + u16)))) =
     sq2p 1 * u1 + sq2p 1 * u2 + sq2p 1 * u3 + sq2p 1 * u4 + sq2p 1 * u5 + sq2p 1 * u6 + sq2p 1 * u7 + sq2p 1 * u8 + sq2p 1 * u9 + sq2p 1 * u10 + sq2p 1 * u11 + sq2p 1 * u12 + sq2p 1 * u13 + sq2p 1 * u14 + sq2p 1 * u15 + sq2p 1 * u16) by (intros; ring).
  rewrite DIST. rewrite !VAL.
  transitivity (gden (GFSim c t (frac 1 2) phi) (amp (seq 0 n) (pv m2) g2 b) z).
  - rewrite fsim_val. assert (GA := fsim_gadget phi (z c) (z t) a). cbv zeta in GA.
    transitivity ((if Bool.eqb (z c) (z t) then if z c then cexp (- phi) else C1 else - Ci) * a (z t) (z c)).
    + rewrite <- GA. clear GA. destruct (z c), (z t); unfold dlt; cbn [Bool.eqb]; ring.
    + unfold a. destruct (Bool.eqb_spec (z c) (z t)) as [e|e].
      * f_equal. rewrite <- e. rewrite upd_id. rewrite e, upd_id. reflexivity.
      * f_equal. 
  - rewrite A2. rewrite (hads_comm (gden (GFSim c t (frac 1 2) phi))).
    + rewrite !nodeop_0.
      rewrite (hads_ext (fun q => isX (on_scalar (s_add_power 1) g14) (pv m3 q)) (fun q => isX g2 (pv m2 q))); auto.
      intros q Hq. apply in_seq in Hq. unfold m3. rewrite !pv_set.
      assert (T14 : forall u, vty g14 u = vty g8 u) by (intros u; rewrite <- T13; apply (same_frame_vty g13 g14 u F14)).
      change (isX g14 (if q =? t then tv else if q =? c then cv else pv m2 q)%nat = isX g2 (pv m2 q)).
      destruct (Nat.eqb_spec q t) as [->|Nqt]; [rewrite Pt, (isX_Z g2), (isX_Z g14); auto; rewrite T14; auto|].
      destruct (Nat.eqb_spec q c) as [->|Nqc]; [rewrite Pc, (isX_Z g2), (isX_Z g14); auto; rewrite T14; auto|].
      unfold isX. assert (Iq : In (pv m2 q) (vertices g2)) by (apply (b_p _ _ _ _ B2); lia). rewrite T14, T8o, T4z; auto.
    + intros q s _ Fq. apply fsim_comm; intros ->; [rewrite Pc in Fq|rewrite Pt in Fq]; rewrite isX_Z in Fq; auto; discriminate.
Qed.
