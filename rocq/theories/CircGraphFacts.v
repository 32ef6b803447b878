(** The whole of circuit_to_graph: gates, inputs, outputs. *)
From Coq Require Import Reals ZArith QArith Qcanon List Bool Arith Lia Permutation FunctionalExtensionality.
From Verif Require Import CNum Base ScalarModel ScalarProofs GraphModel GraphSem SumLemmas GraphProofs GraphOps RulesModel RuleLemmas
  SpiderProofs IsoProofs IdProofs LcompProofs PivotProofs GrowProofs StoreProofs InvProofs BfixProofs TotalProofs GrowTotal
  GateModel CircSpec GateProofs GateDecomp GateAdj GateMask CircGraphModel AmpProofs CircGraphProofs.
Import ListNotations.
Open Scope C_scope.

(** ** Lists of gates *)
Definition prim (g : gate) : Prop := basic g \/ match g with GXCX _ _ => True | _ => False end.
Lemma gate2 : forall n g c t, gate_in n g -> gate_qubits g = [c; t] -> (c < n)%nat /\ (t < n)%nat /\ c <> t.
Proof.
  intros n g c t [[N _] H] E. rewrite E in *. split; [apply H; simpl; auto|]. split; [apply H; simpl; auto|].
  intros ->. apply NoDup_cons_iff in N. destruct N as [N _]. apply N. simpl; auto.
Qed.
Lemma prim_st : forall n ins g m S k, st n ins g m S -> prim k -> gate_in n k ->
  exists g' m', prim_to_graph k (g, m) = Ok (g', m') /\ st n ins g' m' (fun b => gden k (S b)).
Proof.
  intros n ins g m S k H HP HI.
  destruct k; try (exfalso; destruct HP as [HP|HP]; exact HP).
  - assert (Ht : (target < n)%nat) by (apply HI; simpl; auto).
    destruct (phase_st n ins g m S ZSP target phase H Ht (or_introl eq_refl)) as [g' [m' [E H']]]. exists g', m'. split; auto.
  - assert (Ht : (target < n)%nat) by (apply HI; simpl; auto).
    destruct (phase_st n ins g m S XSP target phase H Ht (or_intror eq_refl)) as [g' [m' [E H']]]. exists g', m'. split; auto.
    eapply st_ext; eauto. intros b. apply nodeop_X.
  - assert (Ht : (target < n)%nat) by (apply HI; simpl; auto). apply (had_st n ins g m S target H Ht).
  - destruct (gate2 n _ control target HI eq_refl) as [Hc [Ht D]].
    destruct (two_st n ins g m S XSP ZSP SIMPLE control target H Hc Ht D (or_intror eq_refl) (or_introl eq_refl) eq_refl) as [g' [m' [E H']]].
    exists g', m'. split; auto. eapply st_ext; eauto. intros b. rewrite <- cz_cnot by auto. reflexivity.
  - destruct (gate2 n _ control target HI eq_refl) as [Hc [Ht D]].
    destruct (two_st n ins g m S ZSP ZSP HADAMARD control target H Hc Ht D (or_introl eq_refl) (or_introl eq_refl) eq_refl) as [g' [m' [E H']]].
    exists g', m'. split; auto.
  - destruct (gate2 n _ control target HI eq_refl) as [Hc [Ht D]].
    destruct (two_st n ins g m S XSP XSP HADAMARD control target H Hc Ht D (or_intror eq_refl) (or_intror eq_refl) eq_refl) as [g' [m' [E H']]].
    exists g', m'. split; auto. eapply st_ext; eauto. intros b. rewrite <- cz_xcx by auto. reflexivity.
  - destruct (gate2 n _ control target HI eq_refl) as [Hc [Ht D]]. assert (Th : theta = frac 1 2) by (apply HI). subst theta.
    apply (fsim_st n ins g m S control target phi H Hc Ht D).
Qed.
Lemma prims_st : forall n ins l g m S, st n ins g m S -> Forall (fun k => prim k /\ gate_in n k) l ->
  exists g' m', foldM (fun s b => prim_to_graph b s) l (g, m) = Ok (g', m') /\ st n ins g' m' (fun b => cden l (S b)).
Proof.
  intros n ins. induction l as [|k l IH]; intros g m S H F; simpl.
  - exists g, m. split; auto.
  - apply Forall_cons_iff in F. destruct F as [[F1 F2] F3]. destruct (prim_st n ins g m S k H F1 F2) as [g1 [m1 [E1 H1]]]. rewrite E1. cbn [bind].
    apply (IH g1 m1 _ H1 F3).
Qed.
(** gates whose diagram has no H-box *)
Definition no_hbox (k : gate) : Prop := match k with GCCZ _ _ _ | GTof _ _ _ => False | _ => True end.
Lemma gate_st : forall n ins g m S k, st n ins g m S -> no_hbox k -> gate_in n k ->
  exists g' m' z, gate_to_graph k (g, m) = Ok (g', m') /\ unitc z /\ (prim k -> z = C1) /\ st n ins g' m' (fun b x => z * gden k (S b) x).
Proof.
  intros n ins g m S k H NB HI.
  assert (PR : prim k -> gate_to_graph k = prim_to_graph k -> exists g' m' z, gate_to_graph k (g, m) = Ok (g', m') /\ unitc z /\ (prim k -> z = C1) /\ st n ins g' m' (fun b x => z * gden k (S b) x)).
  { intros HP ->. destruct (prim_st n ins g m S k H HP HI) as [g' [m' [E H']]]. exists g', m', C1. split; auto. split; [apply unit_1|]. split; auto.
    eapply st_ext; eauto. intros b. apply state_ext. intros x. ring. }
  assert (CO : ~ prim k -> (gate_to_graph k = fun s => let* bs := to_basic_gates k in foldM (fun s b => prim_to_graph b s) bs s) ->
     exists g' m' z, gate_to_graph k (g, m) = Ok (g', m') /\ unitc z /\ (prim k -> z = C1) /\ st n ins g' m' (fun b x => z * gden k (S b) x)).
  { intros NP ->. destruct (basic_ok k (proj1 HI)) as [gs [z [E [U [D F]]]]]. rewrite E. cbn [bind].
    destruct (prims_st n ins gs g m S H) as [g' [m' [E' H']]].
    - eapply Forall_impl; [|exact F]. intros a [A1 [A2 A3]]. split; [left; auto|]. split; auto. intros q Hq. apply HI. auto.
    - exists g', m', z. split; auto. split; auto. split; [intros X; contradiction|]. eapply st_ext; [exact H'|]. intros b. cbv beta. rewrite D. reflexivity. }
  destruct k; try destruct NB; try (apply PR; [left; exact I|reflexivity]); try (apply CO; [intros [X|X]; exact X|reflexivity]).
  apply PR; [right; exact I|reflexivity].
Qed.
Lemma level_st : forall cr n ins g m S, st n ins g m S -> exists m', level_rows cr (g, m) = (g, m') /\ st n ins g m' S.
Proof.
  intros [] n ins g m S H; unfold level_rows; [exists m; auto|]. cbn [fst snd]. eexists. split; [reflexivity|].
  apply (st_rows n ins g m); auto. intros q Hq. destruct (b_r _ _ _ _ (proj1 H) q Hq) as [r Er]. unfold set_all_rows. cbn [mrows].
  exists (max_row m). clear - Er. generalize (max_row m). intros k. induction (mrows m) as [|[a w] d IH]; [discriminate|]. simpl in *. destruct (Nat.eqb q a); auto.
Qed.
Lemma gates_st : forall cr n ins l g m S, st n ins g m S -> (forall k, In k l -> no_hbox k /\ gate_in n k) ->
  exists g' m' z, foldM (add_one_gate cr) l (g, m) = Ok (g', m') /\ unitc z /\ (Forall prim l -> z = C1) /\ st n ins g' m' (fun b x => z * cden l (S b) x).
Proof.
  intros cr n ins. induction l as [|k l IH]; intros g m S H F; cbn [foldM].
  - exists g, m, C1. split; auto. split; [apply unit_1|]. split; auto. eapply st_ext; eauto. intros b. apply state_ext. intros x. cbv beta. change (cden [] (S b)) with (S b). ring.
  - destruct (F k (or_introl eq_refl)) as [F1 F2]. unfold add_one_gate at 1. destruct (level_st cr n ins g m S H) as [m0 [E0 H0]]. rewrite E0.
    destruct (gate_st n ins g m0 S k H0 F1 F2) as [g1 [m1 [z1 [E1 [U1 [P1 H1]]]]]]. rewrite E1. cbn [bind].
    destruct (level_st cr n ins g1 m1 _ H1) as [m2 [E2 H2]]. rewrite E2.
    destruct (IH g1 m2 _ H2) as [g' [m' [z [E [U [P H']]]]]]; [intros; apply F; simpl; auto|]. exists g', m', (z1 * z). split; auto.
    split; [apply unit_mult; auto|]. split.
    + intros FA. apply Forall_cons_iff in FA. destruct FA as [A1 A2]. rewrite P1, P by auto. ring.
    + eapply st_ext; eauto. intros b. apply state_ext. intros x. cbv beta. rewrite cden_scale, cden_cons. ring.
Qed.

(** ** Inputs *)
Definition basis (n : nat) (i : assignment) : state := fun x => cprod (fun q => dlt (i q) (x q)) (seq 0 n).
Lemma empty_wf : wfg empty_graph.
Proof. constructor; simpl; intros; try constructor; try tauto; try discriminate. Qed.
Definition ist (n : nat) (ins : list nat) (g : graph) (m : mapper) : Prop :=
  st n ins g m (fun b => basis n (fun q => b (nth q ins 0%nat))) /\ length ins = n /\ NoDup ins /\
  (forall q, (q < n)%nat -> pv m q = nth q ins 0%nat) /\ forall u w, edge_type g u w = None.
Lemma ist_0 : ist 0 [] empty_graph mapper_init.
Proof.
  split; [|split; auto; split; [constructor|split; auto; intros; lia]]. split.
  - constructor; auto; try (intros; simpl in *; try tauto; try lia); [apply empty_wf|intros v; reflexivity|intros v []].
  - intros b. apply state_ext. intros z. unfold amp, hads, basis, tails. simpl. unfold integL. simpl.
    assert (E : to_number scalar_init = C1) by (unfold to_number, scalar_init; simpl; rewrite cexp_0, sq2p_0; ring). rewrite E. ring.
Qed.

Lemma nth_snoc : forall (l : list nat) v q d, (q < S (length l))%nat -> nth q (l ++ [v]) d = if Nat.eqb q (length l) then v else nth q l d.
Proof. intros l v q d H. destruct (Nat.eqb_spec q (length l)) as [->|N]; [apply nth_middle|apply app_nth1; lia]. Qed.
Lemma ist_step : forall n ins g m, ist n ins g m ->
  forall g' m' ins', add_input ((g, m), ins) n = ((g', m'), ins') -> ist (S n) ins' g' m'.
Proof.
  intros n ins g m [[B A] [LN [ND [PV NE]]]] g' m' ins' E. unfold add_input in E.
  destruct (add_vertex BOUNDARY (crd n) (crd 0) (Some 0%Qc) g) as [g1 v] eqn:E1. injection E as <- <- <-.
  destruct (add_vertex_rows _ _ _ _ _ _ _ (b_wf _ _ _ _ B) (b_rows _ _ _ _ B) E1) as [_ [R' _]].
  assert (AB := fun L pv b z => amp_boundary _ _ _ _ _ L pv b z (b_wf _ _ _ _ B) E1).
  destruct (add_vertex_spec _ _ _ _ _ _ _ (b_wf _ _ _ _ B) E1) as [Ev [W' [V [ET [_ [T [P [I [O SC]]]]]]]]].
  assert (Fv := vertices_pv_fresh g v (b_wf _ _ _ _ B) Ev).
  set (m1 := m_set_qubit n n (set_next_row n 1 (set_prev_vertex n v m))).
  assert (PV1 : forall q, pv m1 q = if Nat.eqb q n then v else pv m q) by (intros q; apply pv_set).
  assert (NI : forall b, In b ins -> b <> v) by (intros b Hb ->; apply Fv; apply (b_ins _ _ _ _ B); auto).
  assert (PVN : forall q, (q < S n)%nat -> pv m1 q = nth q (ins ++ [v]) 0%nat).
  { intros q Hq. rewrite PV1, nth_snoc by lia. rewrite LN. destruct (Nat.eqb_spec q n); auto. apply PV. lia. }
  assert (BV : isB g1 v = true) by (unfold isB; rewrite T, Nat.eqb_refl; auto).
  assert (NE' : forall u w, edge_type g1 u w = None) by (intros; rewrite ET; auto).
  assert (ND' : NoDup (ins ++ [v])).
  { apply NoDup_snoc; auto. intros X. apply (NI v X). auto. }
  split; [|split; [rewrite app_length; simpl; lia|split; auto]]. split.
  - assert (B0 := B). destruct B. constructor; auto.
    + intros u. auto.
    + intros u Hu. rewrite V, in_app_iff in Hu. unfold isB. rewrite T. destruct (Nat.eqb_spec u v); [subst; apply in_or_app; simpl; auto|].
      destruct Hu as [Hu|[Hu|[]]]; [|congruence]. specialize (b_ty u Hu). unfold isB in b_ty. destruct (vtype_eqb (vty g u) BOUNDARY); auto. apply in_or_app. auto.
    + intros u Hu. rewrite V, T, in_app_iff. rewrite in_app_iff in Hu. destruct (Nat.eqb_spec u v); [subst; simpl; auto|].
      destruct Hu as [Hu|[Hu|[]]]; [|congruence]. destruct (b_ins u Hu). auto.
    + intros u Hu. rewrite P. rewrite V, in_app_iff in Hu. destruct (Nat.eqb_spec u v); [subst; apply qmod2_range|]. destruct Hu as [Hu|[Hu|[]]]; [auto|congruence].
    + intros u Hu. rewrite P. rewrite in_app_iff in Hu. destruct (Nat.eqb_spec u v); [subst; apply qmod2_0|]. destruct Hu as [Hu|[Hu|[]]]; [auto|congruence].
    + unfold m1, m_set_qubit. simpl mqubits. rewrite dkeys_dset_notin.
      * change (dkeys (mqubits (set_next_row n 1 (set_prev_vertex n v m)))) with (dkeys (mqubits m)). rewrite b_keys. symmetry. apply seq_S.
      * change (~ In n (dkeys (mqubits m))). rewrite b_keys, in_seq. lia.
    + intros q Hq. unfold m1, m_set_qubit. simpl mqubits. rewrite dget_dset. destruct (Nat.eqb_spec q n); [subst; auto|]. apply b_q. lia.
    + intros q Hq. unfold m1, m_set_qubit, set_next_row. simpl mrows. rewrite dget_dset. destruct (Nat.eqb_spec q n); [eauto|]. apply b_r. lia.
    + intros q Hq. rewrite PV1. unfold m1, m_set_qubit, set_next_row, set_prev_vertex. simpl mprev. rewrite dget_dset, V, in_app_iff.
      destruct (Nat.eqb_spec q n); [simpl; auto|]. destruct (b_p q) as [X1 X2]; [lia|]. split; auto.
    + intros q q' Hq Hq'. rewrite !PVN by lia. intros X. apply (proj1 (NoDup_nth (ins ++ [v]) 0%nat) ND'); auto; rewrite app_length; simpl; lia.
    + intros b Hb. left. apply (In_nth _ _ 0%nat) in Hb. destruct Hb as [q [Hq <-]]. rewrite app_length in Hq. simpl in Hq. exists q. split; [lia|]. split; auto. apply PVN. lia.
    + rewrite I, O. auto.
  - intros b. apply state_ext. intros z.
    assert (HN : hads (fun q => isX g1 (pv m1 q)) (seq 0 (S n)) (basis (S n) (fun q => b (nth q (ins ++ [v]) 0%nat))) z = basis (S n) (fun q => b (nth q (ins ++ [v]) 0%nat)) z).
    { rewrite hads_none; auto. intros q Hq. apply in_seq in Hq. rewrite PVN by lia. unfold isX. rewrite T.
      rewrite nth_snoc by lia. rewrite LN. destruct (Nat.eqb_spec q n); [rewrite Nat.eqb_refl; auto|].
      assert (X : In (nth q ins 0%nat) ins) by (apply nth_In; lia). rewrite (proj2 (Nat.eqb_neq _ _) (NI _ X)). destruct (b_ins _ _ _ _ B _ X) as [_ ->]. reflexivity. }
    rewrite HN.
    rewrite (amp_perm (seq 0 (S n)) (n :: seq 0 n)) by (rewrite seq_S; apply Permutation_sym, Permutation_cons_append).
    rewrite amp_bport by (intros u Hu; rewrite PV1, Nat.eqb_refl; intros ->; unfold internal in Hu; apply filter_In in Hu; destruct Hu as [_ Hu]; rewrite BV in Hu; discriminate).
    rewrite (amp_ext _ (pv m1) (pv m) _ b z z) by (intros q Hq; apply in_seq in Hq; split; auto; rewrite PV1, (proj2 (Nat.eqb_neq q n)); auto; lia).
    rewrite AB. rewrite A. rewrite hads_none.
    2:{ intros q Hq. apply in_seq in Hq. rewrite PV by lia. unfold isX. destruct (b_ins _ _ _ _ B (nth q ins 0%nat)) as [_ ->]; auto. apply nth_In. lia. }
    unfold basis. rewrite seq_S, cprod_app. cbn [cprod]. rewrite PV1, Nat.eqb_refl. rewrite nth_snoc by lia. rewrite LN, Nat.add_0_l, Nat.eqb_refl.
    rewrite (cprod_ext _ (fun q => dlt (b (nth q (ins ++ [v]) 0%nat)) (z q)) (fun q => dlt (b (nth q ins 0%nat)) (z q))); [ring|].
    intros q Hq. apply in_seq in Hq. rewrite app_nth1 by lia. reflexivity.
Qed.
Lemma inputs_ok : forall n, exists g m ins, fold_left add_input (seq 0 n) ((empty_graph, mapper_init), []) = ((g, m), ins) /\ ist n ins g m.
Proof.
  induction n as [|n IH].
  - exists empty_graph, mapper_init, []. split; auto. apply ist_0.
  - destruct IH as [g [m [ins [E H]]]]. rewrite seq_S, fold_left_app, E. cbn [fold_left]. rewrite Nat.add_0_l.
    destruct (add_input (g, m, ins) n) as [[g' m'] ins'] eqn:E'. exists g', m', ins'. split; auto. eapply ist_step; eauto.
Qed.

(** ** Outputs *)
Record ost (n : nat) (ins outs : list nat) (R : list nat) (g : graph) (m : mapper) : Prop := mkost {
  o_wf : wfg g;
  o_nl : noloop g;
  o_ty : forall v, In v (vertices g) -> if isB g v then In v (ins ++ outs) else vty g v = ZSP \/ vty g v = XSP;
  o_b : forall v, In v (ins ++ outs) -> In v (vertices g) /\ vty g v = BOUNDARY;
  o_ph : forall v, In v (vertices g) -> in02 (phase g v);
  o_bz : forall v, In v (ins ++ outs) -> phase g v = 0%Qc;
  o_rows : rows_ok g;
  o_q : forall q, (q < n)%nat -> dget q (mqubits m) = Some q;
  o_p : forall q, (q < n)%nat -> dget q (mprev m) = Some (pv m q) /\ In (pv m q) (vertices g);
  o_inj : forall q q', (q < n)%nat -> (q' < n)%nat -> pv m q = pv m q' -> q = q';
  o_no : forall q, (q < n)%nat -> ~ In (pv m q) outs;
  o_R : forall q, In q R -> (q < n)%nat;
  o_nd : NoDup (ins ++ outs);
  o_ndR : NoDup R;
  o_deg : forall b, In b (ins ++ outs) ->
    (exists q, In q R /\ pv m q = b /\ forall w, edge_type g b w = None) \/
    ((forall q, In q R -> pv m q <> b) /\ exists u, forall w, edge_type g b w <> None <-> w = u)
}.
Lemma ost_step : forall n ins outs q R g m r, ost n ins outs (q :: R) g m ->
  exists g' v, add_output r m (g, outs) q = Ok (g', outs ++ [v]) /\ ost n ins (outs ++ [v]) R g' m /\
    ginputs g' = ginputs g /\ goutputs g' = goutputs g /\ (forall u, In u (vertices g) -> isX g' u = isX g u) /\
    (forall b z, amp R (pv m) g' b z = hif (isX g (pv m q)) q (amp (q :: R) (pv m) g b) (upd z q (b v))).
Proof.
  intros n ins outs q R g m r O.
  assert (Hq : (q < n)%nat) by (apply (o_R _ _ _ _ _ _ O); simpl; auto).
  destruct (o_p _ _ _ _ _ _ O q Hq) as [Ep Ip]. unfold add_output, to_qubit, prev_vertex. rewrite (o_q _ _ _ _ _ _ O q Hq), Ep. cbn [of_opt bind].
  destruct (add_vertex BOUNDARY (crd q) (crd r) (Some 0%Qc) g) as [g1 v] eqn:E1. cbn [bind].
  destruct (add_vertex_rows _ _ _ _ _ _ _ (o_wf _ _ _ _ _ _ O) (o_rows _ _ _ _ _ _ O) E1) as [_ [R1 _]].
  assert (AB := fun L pv b z => amp_boundary _ _ _ _ _ L pv b z (o_wf _ _ _ _ _ _ O) E1).
  destruct (add_vertex_spec _ _ _ _ _ _ _ (o_wf _ _ _ _ _ _ O) E1) as [Ev [W1 [V [ET [_ [T [P [I1 [O1 SC]]]]]]]]].
  assert (Fv := vertices_pv_fresh g v (o_wf _ _ _ _ _ _ O) Ev).
  set (s := pv m q) in *.
  assert (Dsv : s <> v) by (intros X; apply Fv; rewrite <- X; auto).
  assert (EN : edge_type g1 s v = None).
  { rewrite ET. apply (edge_none_out g v s (o_wf _ _ _ _ _ _ O)); auto. }
  destruct (add_edge_new s v SIMPLE g1 W1 Dsv) as [g' [E [W' [F [P' [ET' A']]]]]]; auto; [rewrite V, in_app_iff; auto|rewrite V, in_app_iff; simpl; auto|].
  rewrite E. cbn [bind]. exists g', v. split; auto. assert (FV := fun u => same_frame_vty g1 g' u F). destruct F as [V' [T' [I' [O' [_ [_ R']]]]]].
  assert (BV : isB g1 v = true) by (unfold isB; rewrite T, Nat.eqb_refl; auto).
  assert (NB : forall b, In b (ins ++ outs) -> b <> v) by (intros b Hb ->; apply Fv; apply (o_b _ _ _ _ _ _ O); auto).
  assert (VT : forall u, vty g' u = if Nat.eqb u v then BOUNDARY else vty g u) by (intros; rewrite FV; auto).
  assert (PH : forall u, phase g' u = if Nat.eqb u v then qmod2 0 else phase g u) by (intros; rewrite P'; auto).
  assert (EE : forall a b, edge_type g' a b = if pair_hit s v a b then Some SIMPLE else edge_type g a b) by (intros; rewrite ET', ET; auto).
  assert (IV : forall u, In u (vertices g') <-> In u (vertices g) \/ u = v) by (intros u; rewrite V', V, in_app_iff; simpl; intuition auto).
  split; [|split; [congruence|split; [congruence|split]]].
  - assert (PR : forall k, In k R -> pv m k <> s).
    { intros k Hk X. apply (o_inj _ _ _ _ _ _ O) in X; auto; [|apply (o_R _ _ _ _ _ _ O); simpl; auto]. subst k.
      assert (Z := o_ndR _ _ _ _ _ _ O). apply NoDup_cons_iff in Z. tauto. }
    assert (PN : forall k, (k < n)%nat -> pv m k <> v).
    { intros k Hk X. apply Fv. rewrite <- X. apply (o_p _ _ _ _ _ _ O). auto. }
    assert (O0 := O). destruct O0. constructor; auto.
    + apply (same_frame_nl g g' s v SIMPLE); auto.
    + intros u Hu. apply IV in Hu. unfold isB. rewrite VT. destruct (Nat.eqb_spec u v); [subst; rewrite app_assoc; apply in_or_app; simpl; auto|].
      destruct Hu as [Hu|Hu]; [|congruence]. specialize (o_ty0 u Hu). unfold isB in o_ty0. destruct (vtype_eqb (vty g u) BOUNDARY); auto. rewrite app_assoc. apply in_or_app. auto.
    + intros u Hu. rewrite IV, VT. rewrite app_assoc in Hu. apply in_app_or in Hu. destruct (Nat.eqb_spec u v); [subst; auto|].
      destruct Hu as [Hu|[Hu|[]]]; [|congruence]. destruct (o_b0 u Hu). auto.
    + intros u Hu. rewrite PH. apply IV in Hu. destruct (Nat.eqb_spec u v); [subst; apply qmod2_range|]. destruct Hu as [Hu|Hu]; [auto|congruence].
    + intros u Hu. rewrite PH. rewrite app_assoc in Hu. apply in_app_or in Hu. destruct (Nat.eqb_spec u v); [subst; apply qmod2_0|]. destruct Hu as [Hu|[Hu|[]]]; [auto|congruence].
    + intros u Hu. rewrite R'. apply R1. rewrite <- V'. auto.
    + intros k Hk. destruct (o_p0 k Hk). split; auto. apply IV. auto.
    + intros k Hk X. apply in_app_or in X. destruct X as [X|[X|[]]]; [apply (o_no0 k Hk X)|apply (PN k Hk); auto].
    + intros k Hk. apply o_R0. simpl; auto.
    + rewrite app_assoc. apply NoDup_snoc; auto. intros X. apply (NB v X). auto.
    + apply NoDup_cons_iff in o_ndR0. tauto.
    + intros b Hb. rewrite app_assoc in Hb. apply in_app_or in Hb. destruct Hb as [Hb|[<-|[]]].
      * destruct (Nat.eq_dec b s) as [->|Ns].
        -- right. split; auto. exists v. intros w. rewrite EE. destruct (o_deg0 s Hb) as [[k [K1 [K2 K3]]]|[K1 _]]; [|exfalso; apply (K1 q); simpl; auto].
           rewrite K3. destruct (pair_hit s v s w) eqn:Z.
           ++ split; [|discriminate]. intros _. apply pair_hit_true in Z. destruct Z as [[_ Z]|[Z _]]; congruence.
           ++ split; [congruence|]. intros ->. exfalso. rewrite pair_hit_st in Z. discriminate.
        -- assert (EB : forall w, edge_type g' b w = edge_type g b w) by (intros w; rewrite EE, pair_hit_false; auto; intros X; injection X as -> ->; [congruence|apply (NB v Hb); auto]).
           destruct (o_deg0 b Hb) as [[k [K1 [K2 K3]]]|[K1 [u K2]]].
           ++ left. exists k. destruct K1 as [<-|K1]; [exfalso; apply Ns; auto|]. split; auto. split; auto. intros w. rewrite EB. auto.
           ++ right. split; [intros; apply K1; simpl; auto|]. exists u. intros w. rewrite EB. auto.
      * right. split; [intros k Hk; apply PN; apply o_R0; simpl; auto|]. exists s. intros w. rewrite EE.
        destruct (pair_hit s v v w) eqn:Z.
        -- split; [|discriminate]. intros _. apply pair_hit_true in Z. destruct Z as [[Z _]|[_ Z]]; congruence.
        -- assert (X : edge_type g v w = None).
           { apply (edge_none_out g v w); auto. }
           rewrite X. split; [congruence|]. intros ->. exfalso. rewrite pair_hit_sym, pair_hit_st in Z. discriminate.
  - intros u Hu. unfold isX. rewrite VT. destruct (Nat.eqb_spec u v); auto. subst. contradiction.
  - intros b z.
    assert (NR : ~ In q R) by (assert (Z := o_ndR _ _ _ _ _ _ O); apply NoDup_cons_iff in Z; tauto).
    set (l := n). assert (Nl : ~ In l (q :: R)) by (intros X; assert (Y := o_R _ _ _ _ _ _ O l X); unfold l in *; lia).
    assert (Dl : q <> l) by (intros ->; apply Nl; simpl; auto).
    set (p := fun i => if Nat.eqb i l then v else pv m i).
    assert (PL : p l = v) by (unfold p; rewrite Nat.eqb_refl; auto).
    assert (PQ : forall i, In i (q :: R) -> p i = pv m i) by (intros i Hi; unfold p; destruct (Nat.eqb_spec i l); auto; subst; contradiction).
    assert (ST : forall w, amp (q :: R) (pv m) g' b (upd z q w) = wt (Some (tog (isX g s) SIMPLE)) w (b v) * amp (q :: R) (pv m) g b (upd z q w)).
    { intros w. rewrite (amp_ext (q :: R) (pv m) p g' b (upd z q w) (upd z q w)) by (intros i Hi; rewrite PQ; auto).
      rewrite (amp_close l) by auto.
      assert (X : forall a, amp (l :: q :: R) p g' b (upd (upd z q w) l a) = wt (Some (tog (isX g s) SIMPLE)) w a * (dlt (b v) a * amp (q :: R) (pv m) g b (upd z q w))).
      { intros a. rewrite (A' (l :: q :: R) p q l b _); simpl; auto; [|unfold s; apply PQ; simpl; auto].
        rewrite upd_same. rewrite (upd_other _ l a q) by auto. rewrite upd_same.
        assert (XV : isX g1 v = false) by (unfold isX; rewrite T, Nat.eqb_refl; auto).
        assert (XS : isX g1 s = isX g s) by (unfold isX; rewrite T, (proj2 (Nat.eqb_neq s v)); auto).
        rewrite XV, XS, xorb_false_r. f_equal.
        rewrite amp_bport. 2:{ intros u Hu. rewrite PL. intros ->. unfold internal in Hu. apply filter_In in Hu. destruct Hu as [_ Hu]. rewrite BV in Hu. discriminate. }
        rewrite PL, upd_same. f_equal. rewrite AB. apply amp_ext. intros i Hi. split; [apply PQ; auto|]. apply upd_other. intros ->. contradiction. }
      rewrite !X. destruct (b v); unfold dlt; cbn; ring. }
    rewrite (amp_close q R) by auto. rewrite !ST. unfold hif. destruct (isX g s); cbn [tog].
    + unfold op1. rewrite upd_same, !upd_shadow. cbn [toggle_edge]. unfold wt, mH, mk2, sgn. rewrite sq2p_m1. destruct (b v); cbn [andb]; ring.
    + cbn [wt]. unfold dlt. destruct (b v); cbn [eqb]; ring.
Qed.
Lemma outputs_ok : forall n ins r m R outs g, ost n ins outs R g m ->
  exists g' vs, foldM (add_output r m) R (g, outs) = Ok (g', outs ++ vs) /\ length vs = length R /\ ost n ins (outs ++ vs) [] g' m /\
    ginputs g' = ginputs g /\ goutputs g' = goutputs g /\
    (forall b s y, (forall z, (forall q, ~ In q R -> z q = y q) -> amp R (pv m) g b z = hads (fun q => isX g (pv m q)) R s z) ->
       (forall j, (j < length R)%nat -> y (nth j R 0%nat) = b (nth j vs 0%nat)) -> sem g' b = s y).
Proof.
  intros n ins r m R. induction R as [|q R IH]; intros outs g O; cbn [foldM].
  - exists g, []. rewrite app_nil_r. split; auto. split; auto. split; auto. split; auto. split; auto. intros b s y H _.
    rewrite <- (amp_nil (pv m) g b y). rewrite (H y) by auto. reflexivity.
  - destruct (ost_step n ins outs q R g m r O) as [g1 [v [E1 [O1 [I1 [U1 [X1 A1]]]]]]]. rewrite E1. cbn [bind].
    destruct (IH _ _ O1) as [g' [vs [E [LN [O' [I' [U' A']]]]]]]. rewrite <- app_assoc in E, O'. exists g', (v :: vs). split; auto. split; [simpl; lia|].
    split; auto. split; [congruence|]. split; [congruence|]. intros b s y H Y.
    assert (NR : ~ In q R) by (assert (Z := o_ndR _ _ _ _ _ _ O); apply NoDup_cons_iff in Z; tauto).
    apply (A' b s y).
    2:{ intros j Hj. apply (Y (S j)). simpl; lia. }
    intros z Hz. rewrite A1. assert (Zq : z q = b v) by (rewrite Hz by auto; apply (Y 0%nat); simpl; lia).
    rewrite <- Zq.
    assert (UZ : upd z q (z q) = z) by (apply functional_extensionality; intros i; unfold upd; destruct (Nat.eqb_spec i q); subst; auto). rewrite UZ.
    assert (HX : hads (fun i => isX g1 (pv m i)) R s = hads (fun i => isX g (pv m i)) R s).
    { apply hads_ext. intros i Hi. apply X1. apply (o_p _ _ _ _ _ _ O). apply (o_R _ _ _ _ _ _ O). simpl; auto. }
    rewrite HX.
    assert (HB : forall w, amp (q :: R) (pv m) g b (upd z q w) = hads (fun i => isX g (pv m i)) (q :: R) s (upd z q w)).
    { intros w. apply H. intros i Hi. simpl in Hi. rewrite upd_other by (intros ->; apply Hi; auto). apply Hz. tauto. }
    set (h := hads (fun i => isX g (pv m i)) R s) in *. cbn [hads fold_right] in HB. fold h in HB.
    assert (HC : hif (isX g (pv m q)) q (amp (q :: R) (pv m) g b) z = hif (isX g (pv m q)) q (hif (isX g (pv m q)) q h) z).
    { unfold hif at 1 2 3. destruct (isX g (pv m q)) eqn:EX.
      - unfold op1 at 1 2. rewrite !HB. reflexivity.
      - rewrite <- UZ. rewrite HB. reflexivity. }
    rewrite HC, hif_hif, xorb_nilpotent. reflexivity.
Qed.

Lemma hads_perm : forall F L L' s, Permutation L L' -> hads F L s = hads F L' s.
Proof.
  intros F L L' s H. revert s. induction H; intros s; cbn [hads fold_right]; auto.
  - unfold hads in IHPermutation. rewrite IHPermutation. reflexivity.
  - destruct (Nat.eq_dec x y) as [->|D]; auto. destruct (F x), (F y); auto. apply op1_comm. auto.
  - rewrite IHPermutation1. apply IHPermutation2.
Qed.
Lemma wfg_io : forall g i o, wfg g -> wfg (set_outputs o (set_inputs i g)).
Proof. intros g i o []. constructor; auto. Qed.

(** ** The whole function *)
Definition is_perm_oracle (so : list nat -> list nat) : Prop := forall l, Permutation (so l) l.
Theorem circuit_graph_ok : forall so compress c, is_perm_oracle so -> (forall k, In k (cgates c) -> no_hbox k /\ gate_in (cqubits c) k) ->
  exists g z, circuit_to_graph so compress c = Ok g /\ unitc z /\ (Forall prim (cgates c) -> z = C1) /\ zinv g /\
    length (ginputs g) = cqubits c /\ length (goutputs g) = cqubits c /\ NoDup (ginputs g ++ goutputs g) /\
    forall b y, (forall j, (j < cqubits c)%nat -> y (nth j (so (seq 0 (cqubits c))) 0%nat) = b (nth j (goutputs g) 0%nat)) ->
      sem g b = z * cden (cgates c) (basis (cqubits c) (fun q => b (nth q (ginputs g) 0%nat))) y.
Proof.
  intros so cr [n gs] SO F. cbn [cqubits cgates] in *. unfold circuit_to_graph. cbn [cqubits cgates].
  destruct (inputs_ok n) as [g0 [m0 [ins [E0 [S0 [LI [NI [PV0 _]]]]]]]]. rewrite E0.
  destruct (gates_st cr n ins gs g0 m0 _ S0 F) as [g1 [m1 [z [E1 [U [P1 [B1 A1]]]]]]]. rewrite E1. cbn [bind].
  unfold labels. rewrite (b_keys _ _ _ _ B1). set (R := so (seq 0 n)). assert (PR : Permutation R (seq 0 n)) by apply SO.
  assert (O1 : ost n ins [] R g1 m1).
  { destruct B1. constructor; rewrite ?app_nil_r; auto.
    - intros q Hq. eapply Permutation_in in Hq; eauto. apply in_seq in Hq. lia.
    - eapply Permutation_NoDup; [apply Permutation_sym; exact PR|apply seq_NoDup].
    - intros b Hb. destruct (b_deg b Hb) as [[q [H1 [H2 H3]]]|[H1 H2]].
      + left. exists q. split; auto. eapply Permutation_in; [apply Permutation_sym; exact PR|]. apply in_seq. lia.
      + right. split; auto. intros q Hq. apply H1. eapply Permutation_in in Hq; eauto. apply in_seq in Hq. lia. }
  destruct (outputs_ok n ins (max_row m1) m1 R [] g1 O1) as [g2 [vs [E2 [LV [O2 [I2 [U2 A2]]]]]]]. rewrite E2. cbn [bind fst snd app].
  assert (LR : length R = n) by (rewrite (Permutation_length PR), seq_length; auto).
  cbn [app] in O2. eexists. exists z. split; [reflexivity|]. split; auto. split; auto.
  split; [|split; [exact LI|split; [simpl; congruence|split; [exact (o_nd _ _ _ _ _ _ O2)|]]]].
  - assert (BD : forall v, In v (vertices g2) -> vty g2 v = BOUNDARY -> In v (ins ++ vs)).
    { intros v Hv T. assert (X := o_ty _ _ _ _ _ _ O2 v Hv). unfold isB in X. rewrite T in X. exact X. }
    constructor.
    + constructor.
      * exact (wfg_io g2 ins vs (o_wf _ _ _ _ _ _ O2)).
      * exact (o_nl _ _ _ _ _ _ O2).
      * intros v Hv. assert (X := o_ty _ _ _ _ _ _ O2 v Hv). change (vty g2 v <> HBOX). unfold isB in X.
        destruct (vty g2 v) eqn:T; try discriminate; destruct X; discriminate.
      * exact (o_ph _ _ _ _ _ _ O2).
      * intros v Hv. change (In v (vertices g2) /\ isB g2 v = true). destruct (o_b _ _ _ _ _ _ O2 v) as [X1 X2]; [apply in_or_app; exact Hv|].
        split; auto. unfold isB. rewrite X2. reflexivity.
    + intros v Hv T. destruct (o_deg _ _ _ _ _ _ O2 v (BD v Hv T)) as [[q [[] _]]|[_ H]]. exact H.
    + intros v Hv T. apply (o_bz _ _ _ _ _ _ O2 v (BD v Hv T)).
    + exact (o_rows _ _ _ _ _ _ O2).
    + intros v Hv T. apply in_app_or. apply (BD v Hv T).
  - intros b y Hy. change (sem g2 b = z * cden gs (basis n (fun q => b (nth q ins 0%nat))) y).
    apply (A2 b (fun x => z * cden gs (basis n (fun q => b (nth q ins 0%nat))) x) y).
    + intros x _. rewrite (amp_perm R (seq 0 n)) by auto. rewrite A1. unfold hads. 
      assert (X := hads_perm (fun q => isX g1 (pv m1 q)) (seq 0 n) R (fun x => z * cden gs (basis n (fun q => b (nth q ins 0%nat))) x)).
      unfold hads in X. rewrite X; auto. apply Permutation_sym; auto.
    + rewrite LR. exact Hy.
Qed.
Theorem to_graph_ok : forall so compress c, is_perm_oracle so -> circ_ok c ->
  exists g z, to_graph so false compress c = Ok g /\ unitc z /\ zinv g /\
    length (ginputs g) = cqubits c /\ length (goutputs g) = cqubits c /\ NoDup (ginputs g ++ goutputs g) /\
    forall b y, (forall j, (j < cqubits c)%nat -> y (nth j (so (seq 0 (cqubits c))) 0%nat) = b (nth j (goutputs g) 0%nat)) ->
      sem g b = z * cden (cgates c) (basis (cqubits c) (fun q => b (nth q (ginputs g) 0%nat))) y.
Proof.
  intros so cr c SO OK. destruct (c_basic_ok c OK) as [c' [z [E [N [B [U D]]]]]]. unfold to_graph. rewrite E. cbn [bind].
  destruct (circuit_graph_ok so cr c' SO) as [g [z' [E' [U' [_ [Z [L1 [L2 [ND H]]]]]]]]].
  - intros k Hk. destruct (B k Hk) as [B1 B2]. split; auto. destruct k; try exact I; destruct B1.
  - exists g, (z' * z). split; auto. split; [apply unit_mult; auto|]. split; auto. rewrite N in *. split; auto. split; auto. split; auto.
    intros b y Hy. rewrite (H b y Hy), D. ring.
Qed.
