(** Applying a computed difference reproduces the target graph (diff.py). *)
From Coq Require Import Reals ZArith QArith Qcanon List Bool Arith Lia Permutation.
From Verif Require Import CNum Base ScalarModel ScalarProofs GraphModel GraphSem SumLemmas GraphProofs GraphOps RulesModel RuleLemmas SpiderProofs PivotMatch
  StoreProofs ColorProofs SimpModel InvProofs GraphAlgModel GraphAlgProofs RunEx Decide AlgUse DiffModel.
Import ListNotations.
Open Scope nat_scope.

(** ** association lists made by recording at most one item per key *)
Section Rec.
  Context {V : Type}.
  Variable f : nat -> list (nat * V).
  Variable h : nat -> option V.
  Hypothesis fh : forall v, f v = match h v with Some x => [(v, x)] | None => [] end.
  Lemma rec_get : forall L v, dget v (flat_map f L) = if nmem v L then h v else None.
  Proof.
    induction L as [|a L IH]; intros v; [reflexivity|]. cbn [flat_map nmem existsb]. rewrite fh. fold (nmem v L). destruct (Nat.eqb_spec v a) as [->|D]; cbn [orb].
    - destruct (h a) eqn:E; simpl; [rewrite Nat.eqb_refl; reflexivity|]. rewrite IH. rewrite E. destruct (nmem a L); reflexivity.
    - destruct (h a) eqn:E; cbn [app dget]; [apply Nat.eqb_neq in D; rewrite D|]; apply IH.
  Qed.
  Lemma rec_keys : forall L v, In v (dkeys (flat_map f L)) -> In v L.
  Proof.
    intros L v H. apply dget_keys in H. destruct H as [x H]. rewrite rec_get in H. destruct (nmem v L) eqn:E; [apply nmem_spec; exact E|discriminate].
  Qed.
  Lemma rec_nd : forall L, NoDup L -> NoDup (dkeys (flat_map f L)).
  Proof.
    induction 1 as [|a L N ND IH]; [constructor|]. cbn [flat_map]. rewrite fh. destruct (h a); [|exact IH]. simpl. constructor; [|exact IH].
    intros X. apply N. exact (rec_keys _ _ X).
  Qed.
End Rec.

Definition h_type (g1 g2 : graph) (v : nat) : option vtype :=
  if nmem v (vertices g1) then if vtype_eqb (vty g1 v) (vty g2 v) then None else Some (vty g2 v) else if vtype_eqb (vty g2 v) ZSP then None else Some (vty g2 v).
Definition h_phase (g1 g2 : graph) (v : nat) : option Qc :=
  if nmem v (vertices g1) then if qeqb (phase g1 v) (phase g2 v) then None else Some (phase g2 v) else if qeqb (phase g2 v) 0%Qc then None else Some (phase g2 v).
Definition h_pos (g1 g2 : graph) (v : nat) : option (Qc * Qc) :=
  if nmem v (vertices g1) then if qeqb (qubit g1 v) (qubit g2 v) && qeqb (row g1 v) (row g2 v) then None else Some (qubit g2 v, row g2 v) else Some (qubit g2 v, row g2 v).
Lemma fh_type : forall g1 g2 v, diff_type g1 g2 v = match h_type g1 g2 v with Some x => [(v, x)] | None => [] end.
Proof. intros. unfold diff_type, h_type. destruct (nmem v (vertices g1)), (vtype_eqb (vty g1 v) (vty g2 v)), (vtype_eqb (vty g2 v) ZSP); reflexivity. Qed.
Lemma fh_phase : forall g1 g2 v, diff_phase g1 g2 v = match h_phase g1 g2 v with Some x => [(v, x)] | None => [] end.
Proof. intros. unfold diff_phase, h_phase. destruct (nmem v (vertices g1)), (qeqb (phase g1 v) (phase g2 v)), (qeqb (phase g2 v) 0%Qc); reflexivity. Qed.
Lemma fh_pos : forall g1 g2 v, diff_pos g1 g2 v = match h_pos g1 g2 v with Some x => [(v, x)] | None => [] end.
Proof. intros. unfold diff_pos, h_pos. destruct (nmem v (vertices g1)), (qeqb (qubit g1 v) (qubit g2 v) && qeqb (row g1 v) (row g2 v)); reflexivity. Qed.

(** ** single steps *)
Lemma indexed_spec : forall v g, wfg g -> ~ In v (vertices g) -> exists g', add_vertex_indexed v g = Ok g' /\ wfg g' /\ vertices g' = vertices g ++ [v] /\
  (forall a b, edge_type g' a b = edge_type g a b) /\ (forall u, vty g' u = if Nat.eqb u v then BOUNDARY else vty g u) /\ (forall u, phase g' u = if Nat.eqb u v then 0%Qc else phase g u) /\
  gqindex g' = gqindex g /\ grindex g' = grindex g /\ gscalar g' = gscalar g /\ ginputs g' = ginputs g /\ goutputs g' = goutputs g.
Proof.
  intros v g W Hv. unfold add_vertex_indexed. replace (dmem v (gadj g)) with false.
  2:{ symmetry. unfold dmem. unfold vertices in Hv. apply dget_none in Hv. rewrite Hv. reflexivity. }
  set (g1 := if Nat.leb (gvindex g) v then with_vindex (v + 1) g else g).
  assert (W1 : wfg g1 /\ v < gvindex g1).
  { subst g1. destruct (Nat.leb_spec (gvindex g) v) as [L|L]; [|split; auto]. split; [|simpl; lia]. destruct W. constructor; auto.
    intros u Hu. simpl. specialize (wf_fresh u Hu). lia. }
  destruct W1 as [W1 L1].
  assert (Q : vertices g1 = vertices g /\ gadj g1 = gadj g /\ gty g1 = gty g /\ gphase g1 = gphase g /\ gqindex g1 = gqindex g /\ grindex g1 = grindex g /\ gscalar g1 = gscalar g /\ ginputs g1 = ginputs g /\ goutputs g1 = goutputs g).
  { subst g1. destruct (Nat.leb (gvindex g) v); repeat split; reflexivity. }
  destruct Q as [Q0 [Q1 [Q2 [Q3 [Q4 [Q5 [Q6 [Q7 Q8]]]]]]]]. destruct (add_one_wfg v g1 W1) as [W2 V2]; [rewrite Q0; exact Hv|exact L1|].
  exists (add_one_vertex v g1). split; [reflexivity|]. split; [exact W2|]. split; [rewrite V2, Q0; reflexivity|]. split; [|split; [|split; [|repeat split; assumption]]].
  - intros a b. unfold edge_type. simpl. rewrite dget_dset, Q1. destruct (Nat.eqb_spec a v); auto. subst a. unfold vertices in Hv. apply dget_none in Hv. rewrite Hv. reflexivity.
  - intros u. unfold vty. simpl. rewrite dget_dset, Q2. destruct (Nat.eqb u v); reflexivity.
  - intros u. unfold phase. simpl. rewrite dget_dset, Q3. destruct (Nat.eqb u v); reflexivity.
Qed.
Lemma wfg_pos : forall v p g, wfg g -> wfg (set_position v p g).
Proof. intros v p g W. destruct W. constructor; auto. Qed.
Lemma qubit_pos : forall v p g u, qubit (set_position v p g) u = if Nat.eqb u v then fst p else qubit g u.
Proof. intros. unfold qubit, set_position. simpl. rewrite dget_dset. destruct (Nat.eqb u v); reflexivity. Qed.
Lemma row_pos : forall v p g u, row (set_position v p g) u = if Nat.eqb u v then snd p else row g u.
Proof. intros. unfold row, set_position. simpl. rewrite dget_dset. destruct (Nat.eqb u v); reflexivity. Qed.

(** what two graphs share at a vertex *)
Definition same_at (g g' : graph) (v : nat) : Prop := vty g' v = vty g v /\ phase g' v = phase g v /\ qubit g' v = qubit g v /\ row g' v = row g v.
Definition same_io (g g' : graph) : Prop := gscalar g' = gscalar g /\ ginputs g' = ginputs g /\ goutputs g' = goutputs g.

Section Diff.
  Variables g1 g2 : graph.
  Variable so : list nat -> list nat.
  Variable eo : list (nat * nat) -> list (nat * nat).
  Hypothesis W1 : wfg g1.
  Hypothesis W2 : wfg g2.
  Hypothesis N1 : noloop g1.
  Hypothesis N2 : noloop g2.
  Hypothesis P2 : allph in02 g2.
  Hypothesis SO : set_order so.
  Hypothesis EO : forall l, Permutation (eo l) l.
  Let d := calculate_diff so eo g1 g2.

  Lemma so_in : forall l v, In v (so l) <-> In v l.
  Proof. intros l v. split; apply Permutation_in; [apply SO|symmetry; apply SO]. Qed.
  Lemma so_nd : forall l, NoDup l -> NoDup (so l).
  Proof. intros l H. eapply Permutation_NoDup; [symmetry; apply SO|exact H]. Qed.
  Lemma eo_in : forall l v, In v (eo l) <-> In v l.
  Proof. intros l v. split; apply Permutation_in; [apply EO|symmetry; apply EO]. Qed.
  Lemma eo_nd : forall l, NoDup l -> NoDup (eo l).
  Proof. intros l H. eapply Permutation_NoDup; [symmetry; apply EO|exact H]. Qed.
  Lemma emem_spec : forall e l, emem e l = true <-> In e l.
  Proof.
    intros [s t] l. unfold emem. rewrite existsb_exists. split.
    - intros [[a b] [H E]]. unfold edge_eqb in E. simpl in E. apply andb_prop in E. destruct E as [E1 E2]. apply Nat.eqb_eq in E1, E2. subst. exact H.
    - intros H. exists (s, t). split; auto. unfold edge_eqb. simpl. rewrite !Nat.eqb_refl. reflexivity.
  Qed.
  Lemma emem_false : forall e l, emem e l = false <-> ~ In e l.
  Proof. intros. rewrite <- emem_spec. destruct (emem e l); split; congruence. Qed.

  Lemma newv_in : forall v, In v (d_newv d) <-> In v (vertices g2) /\ ~ In v (vertices g1).
  Proof. intros v. unfold d, calculate_diff; cbn [d_newv]. rewrite so_in, filter_In, negb_true_iff, nmem_false. tauto. Qed.
  Lemma remv_in : forall v, In v (d_remv d) <-> In v (vertices g1) /\ ~ In v (vertices g2).
  Proof. intros v. unfold d, calculate_diff; cbn [d_remv]. rewrite so_in, filter_In, negb_true_iff, nmem_false. tauto. Qed.
  Lemma reme_in : forall s t, In (s, t) (d_reme d) <-> s < t /\ edge_type g1 s t <> None /\ edge_type g2 s t = None.
  Proof.
    intros s t. unfold d, calculate_diff; cbn [d_reme]. rewrite eo_in, filter_In, negb_true_iff, emem_false, !in_edges by auto.
    destruct (edge_type g2 s t); split; intros H; intuition congruence.
  Qed.
  Lemma newe_in : forall s t e, In ((s, t), e) (d_newe d) <-> s < t /\ edge_type g2 s t = Some e /\ edge_type g1 s t = None.
  Proof.
    intros s t e. unfold d, calculate_diff; cbn [d_newe]. rewrite in_map_iff. split.
    - intros [[a b] [E H]]. injection E as -> -> E. rewrite eo_in in H. rewrite filter_In, negb_true_iff, emem_false, !in_edges in H by auto.
      unfold ety in E. simpl in E. destruct H as [[L H] K]. destruct (edge_type g2 s t); [|congruence]. split; [exact L|]. split; [congruence|]. destruct (edge_type g1 s t); auto. exfalso. apply K. split; [exact L|congruence].
    - intros [L [E2 E1]]. exists (s, t). unfold ety. simpl. rewrite E2. split; [reflexivity|]. apply eo_in. rewrite filter_In, negb_true_iff, emem_false, !in_edges by auto. rewrite E1, E2. split; [split; [exact L|congruence]|]. intros [_ X]. congruence.
  Qed.
  Lemma etypes_in : forall s t e, In ((s, t), e) (d_etypes d) -> s < t /\ edge_type g2 s t = Some e.
  Proof.
    intros s t e H. unfold d, calculate_diff in H; cbn [d_etypes] in H. apply in_flat_map in H. destruct H as [[a b] [H E]]. rewrite eo_in, in_edges in H by auto. destruct H as [L H].
    assert (Q : ((s, t), e) = ((a, b), ety g2 (a, b))). { unfold diff_etype in E. destruct (emem (a, b) (edges g1)), (etype_eqb (ety g1 (a, b)) (ety g2 (a, b))), (etype_eqb (ety g2 (a, b)) HADAMARD); simpl in E; intuition. }
    injection Q as -> -> ->. split; [exact L|]. unfold ety. simpl. destruct (edge_type g2 a b); congruence.
  Qed.
  Lemma etypes_all : forall s t e, s < t -> edge_type g2 s t = Some e -> edge_type g1 s t <> None -> edge_type g1 s t <> Some e -> In ((s, t), e) (d_etypes d).
  Proof.
    intros s t e L E2 E1 D. unfold d, calculate_diff; cbn [d_etypes]. apply in_flat_map. exists (s, t). split; [rewrite eo_in, in_edges by auto; split; [exact L|congruence]|].
    unfold diff_etype. replace (emem (s, t) (edges g1)) with true by (symmetry; apply emem_spec; apply in_edges; auto). unfold ety. simpl. rewrite E2.
    destruct (edge_type g1 s t) as [x|]; [|congruence]. destruct (etype_eqb x e) eqn:X; [apply etype_eqb_eq in X; congruence|]. simpl. auto.
  Qed.

  (** ** 1. edges and vertices are removed *)
  Definition mid (u v : nat) : option etype := match edge_type g2 u v with None => None | Some _ => edge_type g1 u v end.
  Lemma phase_rem : exists ga gb, remove_edges (d_reme d) g1 = Ok ga /\ remove_vertices (d_remv d) ga = Ok gb /\ wfg gb /\
    (forall v, In v (vertices gb) <-> In v (vertices g1) /\ In v (vertices g2)) /\ (forall u v, edge_type gb u v = mid u v) /\
    (forall v, In v (vertices gb) -> same_at g1 gb v) /\ gscalar gb = gscalar g1 /\
    ginputs gb = filter (fun v => nmem v (vertices g2) || negb (nmem v (vertices g1))) (ginputs g1) /\ goutputs gb = filter (fun v => nmem v (vertices g2) || negb (nmem v (vertices g1))) (goutputs g1).
  Proof.
    destruct (remove_edges_ok (d_reme d) g1 W1) as [ga Ea].
    { unfold d, calculate_diff; cbn [d_reme]. apply eo_nd, NoDup_filter, edges_nd; auto. }
    { intros s t H. apply reme_in in H. tauto. }
    destruct (remove_edges_spec _ _ _ W1 (fun s t H => Nat.lt_neq _ _ (proj1 (proj1 (reme_in s t) H))) Ea) as [Wa [Fa [Pa [Sa Xa]]]].
    assert (EA : forall u v, edge_type ga u v = mid u v).
    { intros u v. rewrite Xa. unfold mid. destruct (existsb _ _) eqn:Ex.
      - apply existsb_exists in Ex. destruct Ex as [[s t] [H HP]]. apply reme_in in H. destruct H as [_ [_ H]]. unfold pair_hit in HP. simpl in HP.
        apply orb_prop in HP. destruct HP as [HP|HP]; apply andb_prop in HP; destruct HP as [A B]; apply Nat.eqb_eq in A, B; subst; [rewrite H; reflexivity|].
        rewrite (wf_sym g2 W2), H. reflexivity.
      - destruct (edge_type g2 u v) eqn:E2; [reflexivity|]. destruct (edge_type g1 u v) eqn:E1; [|reflexivity]. exfalso.
        assert (Q : exists e, In e (d_reme d) /\ pair_hit (fst e) (snd e) u v = true).
        { destruct (Nat.lt_trichotomy u v) as [L|[->|L]].
          - exists (u, v). split; [apply reme_in; repeat split; congruence|]. unfold pair_hit. simpl. rewrite !Nat.eqb_refl. reflexivity.
          - rewrite N1 in E1. discriminate.
          - exists (v, u). split; [apply reme_in; rewrite (wf_sym g1 W1), (wf_sym g2 W2); repeat split; congruence|]. unfold pair_hit. simpl. rewrite !Nat.eqb_refl. apply orb_true_r. }
        apply existsb_exists in Q. congruence. }
    destruct Fa as [Va [Ta [Ia [Oa [_ [Qa Ra]]]]]].
    destruct (remove_vertices_ok (d_remv d) ga Wa) as [gb Eb].
    { intros v. rewrite EA. unfold mid. rewrite N2. reflexivity. }
    { unfold d, calculate_diff; cbn [d_remv]. apply so_nd, NoDup_filter, W1. }
    { intros v H. apply remv_in in H. rewrite Va. tauto. }
    pose proof (remove_vertices_spec _ _ _ Wa Eb) as R. exists ga, gb. split; [exact Ea|]. split; [exact Eb|]. split; [exact (rm_wf _ _ _ R)|].
    assert (VB : forall v, In v (vertices gb) <-> In v (vertices g1) /\ In v (vertices g2)).
    { intros v. rewrite (rm_vs _ _ _ R), filter_In, negb_true_iff. change mem with nmem. rewrite nmem_false, remv_in, Va. split; [|tauto]. intros [A B]. split; auto. destruct (in_dec Nat.eq_dec v (vertices g2)); tauto. }
    split; [exact VB|].
    assert (FI : forall l, filter (fun u => negb (mem u (d_remv d))) l = filter (fun v => nmem v (vertices g2) || negb (nmem v (vertices g1))) l).
    { intros l. apply filter_ext. intros v. change mem with nmem. destruct (nmem v (d_remv d)) eqn:E.
      - apply nmem_spec, remv_in in E. destruct E as [A B]. apply nmem_spec in A. apply nmem_false in B. rewrite A, B. reflexivity.
      - destruct (nmem v (vertices g2)) eqn:E2; [reflexivity|]. destruct (nmem v (vertices g1)) eqn:E1; [|reflexivity]. exfalso.
        apply nmem_false in E. apply E. apply remv_in. split; [apply nmem_spec; auto|apply nmem_false; auto]. }
    split; [|split; [|split; [|split]]].
    - intros u v. rewrite (rm_edge _ _ _ R), EA. unfold mid. destruct (edge_type g2 u v) eqn:E2; [|destruct (mem u (d_remv d) || mem v (d_remv d)); reflexivity].
      assert (Iu := edge_in_l _ _ _ _ E2). assert (Iv := edge_in_r _ _ _ _ W2 E2). replace (mem u (d_remv d)) with false; [replace (mem v (d_remv d)) with false; [reflexivity|]|]; symmetry; apply mem_false; rewrite remv_in; tauto.
    - intros v Hv. assert (NV : ~ In v (d_remv d)) by (rewrite remv_in; apply VB in Hv; tauto). unfold same_at. rewrite (rm_ty _ _ _ R v NV), (rm_phase _ _ _ R v NV), (rm_qubit _ _ _ R v NV), (rm_row _ _ _ R v NV).
      unfold vty, phase, qubit, row. rewrite Ta, Pa, Qa, Ra. auto.
    - rewrite (rm_scalar _ _ _ R). exact Sa.
    - rewrite (rm_inputs _ _ _ R), Ia. apply FI.
    - rewrite (rm_outputs _ _ _ R), Oa. apply FI.
  Qed.

  (** ** 2. new vertices *)
  Lemma add_step : forall v h, wfg h -> In v (d_newv d) -> ~ In v (vertices h) -> exists h', diff_add d h v = Ok h' /\ wfg h' /\ vertices h' = vertices h ++ [v] /\
    (forall a b, edge_type h' a b = edge_type h a b) /\ (forall u, u <> v -> same_at h h' u) /\ same_at g2 h' v /\ same_io h h'.
  Proof.
    intros v h W Hd Hv. apply newv_in in Hd. destruct Hd as [I2 I1]. unfold diff_add. destruct (indexed_spec v h W Hv) as [h1 [-> [Wh [Vh [Eh [Th [Ph [Qh [Rh [Sh [Ih Oh]]]]]]]]]]]. cbn [bind].
    assert (In2 : nmem v (so (vertices g2)) = true) by (apply nmem_spec, so_in; exact I2). assert (In1 : nmem v (vertices g1) = false) by (apply nmem_false; exact I1).
    unfold d, calculate_diff; cbn [d_pos d_types d_phases]. rewrite (rec_get _ _ (fh_pos g1 g2)), (rec_get _ _ (fh_type g1 g2)), (rec_get _ _ (fh_phase g1 g2)), In2. unfold h_pos, h_type, h_phase. rewrite In1. cbn [of_opt bind].
    set (h2 := set_position v (qubit g2 v, row g2 v) h1).
    replace (match (if vtype_eqb (vty g2 v) ZSP then None else Some (vty g2 v)) with Some t => t | None => ZSP end) with (vty g2 v).
    2:{ destruct (vtype_eqb (vty g2 v) ZSP) eqn:E; [apply vtype_eqb_eq in E; exact E|reflexivity]. }
    set (h3 := set_type v (vty g2 v) h2). assert (Vh1 : In v (vertices h1)) by (rewrite Vh, in_app_iff; simpl; auto).
    assert (W3 : wfg h3) by (apply set_type_wfg; [apply wfg_pos; exact Wh|exact Vh1]).
    match goal with |- exists h', Ok ?X = _ /\ _ => set (h4 := X) end.
    assert (P4 : forall u, phase h4 u = if Nat.eqb u v then phase g2 v else phase h u).
    { intros u. subst h4. destruct (qeqb_spec (phase g2 v) 0%Qc) as [E|E].
      - rewrite E. change (phase h1 u = (if Nat.eqb u v then 0%Qc else phase h u)). apply Ph.
      - rewrite phase_set_phase. destruct (Nat.eqb u v) eqn:D; [apply qmod2_id; apply P2; exact I2|]. change (phase h1 u = phase h u). rewrite Ph, D. reflexivity. }
    assert (R4 : wfg h4 /\ gadj h4 = gadj h1 /\ gty h4 = gty h3 /\ gqindex h4 = gqindex h3 /\ grindex h4 = grindex h3 /\ gscalar h4 = gscalar h1 /\ ginputs h4 = ginputs h1 /\ goutputs h4 = goutputs h1).
    { subst h4. destruct (qeqb (phase g2 v) 0%Qc); [split; [exact W3|repeat split; reflexivity]|]. split; [apply set_phase_wfg; [exact W3|exact Vh1]|repeat split; reflexivity]. }
    destruct R4 as [W4 [A4 [T4 [Q4 [R4 [S4 [I4 O4]]]]]]]. exists h4. split; [reflexivity|]. split; [exact W4|]. split; [unfold vertices in *; rewrite A4; exact Vh|].
    assert (T5 : forall u, vty h4 u = if Nat.eqb u v then vty g2 v else vty h1 u). { intros u. unfold vty at 1. rewrite T4. change (vty h3 u = (if Nat.eqb u v then vty g2 v else vty h1 u)). subst h3. rewrite vty_set_type. reflexivity. }
    assert (Q5 : forall u, qubit h4 u = if Nat.eqb u v then qubit g2 v else qubit h1 u). { intros u. unfold qubit at 1. rewrite Q4. change (qubit h2 u = (if Nat.eqb u v then qubit g2 v else qubit h1 u)). apply qubit_pos. }
    assert (R5 : forall u, row h4 u = if Nat.eqb u v then row g2 v else row h1 u). { intros u. unfold row at 1. rewrite R4. change (row h2 u = (if Nat.eqb u v then row g2 v else row h1 u)). apply row_pos. }
    split; [|split; [|split]].
    - intros a b. rewrite <- Eh. unfold edge_type. rewrite A4. reflexivity.
    - intros u Du. apply Nat.eqb_neq in Du. unfold same_at. rewrite P4, T5, Q5, R5, Du, Th, Du. unfold qubit, row. rewrite Qh, Rh. auto.
    - unfold same_at. rewrite P4, T5, Q5, R5, Nat.eqb_refl. auto.
    - unfold same_io. rewrite S4, I4, O4. auto.
  Qed.
  Lemma phase_add : forall L h, wfg h -> NoDup L -> (forall v, In v L -> In v (d_newv d) /\ ~ In v (vertices h)) -> exists h', foldM (diff_add d) L h = Ok h' /\ wfg h' /\ vertices h' = vertices h ++ L /\
    (forall a b, edge_type h' a b = edge_type h a b) /\ (forall u, ~ In u L -> same_at h h' u) /\ (forall u, In u L -> same_at g2 h' u) /\ same_io h h'.
  Proof.
    induction L as [|v L IH]; intros h W ND H.
    - exists h. rewrite app_nil_r. split; [reflexivity|]. split; [exact W|]. split; [reflexivity|]. split; [reflexivity|]. split; [intros; repeat split|]. split; [intros u []|repeat split].
    - inversion ND as [|? ? NI ND']; subst. destruct (H v (or_introl eq_refl)) as [Hd Hn]. destruct (add_step v h W Hd Hn) as [h1 [E1 [V1 [VV1 [X1 [O1 [S1 I1]]]]]]].
      destruct (IH h1 V1 ND') as [h2 [E2 [V2 [VV2 [X2 [O2 [S2 I2]]]]]]].
      { intros u Hu. destruct (H u (or_intror Hu)) as [A B]. split; [exact A|]. rewrite VV1, in_app_iff. intros [C|[C|[]]]; [exact (B C)|]. subst. exact (NI Hu). }
      exists h2. cbn [foldM]. rewrite E1. cbn [bind]. split; [exact E2|]. split; [exact V2|]. split; [rewrite VV2, VV1, <- app_assoc; reflexivity|].
      split; [intros; rewrite X2; apply X1|]. split; [|split].
      + intros u Hu. destruct (O1 u) as [A1 [A2 [A3 A4]]]; [intros ->; apply Hu; left; reflexivity|]. destruct (O2 u) as [B1 [B2 [B3 B4]]]; [intros X; apply Hu; right; exact X|]. unfold same_at. rewrite B1, B2, B3, B4. auto.
      + intros u [<-|Hu]; [|apply S2; exact Hu]. destruct (O2 v NI) as [B1 [B2 [B3 B4]]]. unfold same_at. rewrite B1, B2, B3, B4. exact S1.
      + destruct I1 as [A1 [A2 A3]]. destruct I2 as [B1 [B2 B3]]. unfold same_io. rewrite B1, B2, B3. auto.
  Qed.

  (** ** 3. new edges *)
  Definition ehit (es : list ((nat * nat) * etype)) (u v : nat) : bool := existsb (fun e : (nat * nat) * etype => pair_hit (fst (fst e)) (snd (fst e)) u v) es.
  Lemma g2_hit : forall s t u v e, edge_type g2 s t = Some e -> pair_hit s t u v = true -> edge_type g2 u v = Some e.
  Proof.
    intros s t u v e E H. unfold pair_hit in H. apply orb_prop in H. destruct H as [H|H]; apply andb_prop in H; destruct H as [A B]; apply Nat.eqb_eq in A, B; subst; [exact E|rewrite (wf_sym g2 W2); exact E].
  Qed.
  Lemma same_frame_at : forall h h', same_frame h h' -> (forall u, phase h' u = phase h u) -> forall u, same_at h h' u.
  Proof. intros h h' [_ [T [_ [_ [_ [Q R]]]]]] P u. unfold same_at. rewrite P. unfold vty, qubit, row. rewrite T, Q, R. auto. Qed.
  Lemma phase_edges : forall L h, wfg h -> NoDup (map fst L) -> (forall s t e, In ((s, t), e) L -> s < t /\ In s (vertices h) /\ In t (vertices h) /\ edge_type h s t = None /\ edge_type g2 s t = Some e) ->
    exists h', foldM (fun g (et : (nat * nat) * etype) => add_edge (fst (fst et)) (snd (fst et)) (snd et) g) L h = Ok h' /\ wfg h' /\ vertices h' = vertices h /\
    (forall u v, edge_type h' u v = if ehit L u v then edge_type g2 u v else edge_type h u v) /\ (forall u, same_at h h' u) /\ same_io h h'.
  Proof.
    induction L as [|[[s t] e] L IH]; intros h W ND H.
    - exists h. split; [reflexivity|]. split; [exact W|]. split; [reflexivity|]. split; [reflexivity|]. split; [intros; repeat split|repeat split].
    - cbn [map fst] in ND. inversion ND as [|? ? NI ND']; subst. destruct (H s t e (or_introl eq_refl)) as [L1 [Is [It [En E2]]]].
      destruct (add_edge_fresh s t e h W (Nat.lt_neq _ _ L1) Is It En) as [h1 [E1 [V1 [F1 [P1 [S1 X1]]]]]]. pose proof F1 as [VV1 [_ [I1 [O1 _]]]].
      destruct (IH h1 V1 ND') as [h2 [Eh [V2 [VV2 [X2 [O2 I2]]]]]].
      { intros a b c Hc. destruct (H a b c (or_intror Hc)) as [B1 [B2 [B3 [B4 B5]]]]. rewrite VV1. split; [exact B1|]. split; [exact B2|]. split; [exact B3|]. split; [|exact B5]. rewrite X1.
        destruct (pair_hit s t a b) eqn:PH; [|exact B4]. exfalso. unfold pair_hit in PH. apply orb_prop in PH. destruct PH as [PH|PH]; apply andb_prop in PH; destruct PH as [Q1 Q2]; apply Nat.eqb_eq in Q1, Q2; subst; [|lia].
        apply NI. apply (in_map fst) in Hc. exact Hc. }
      exists h2. cbn [foldM fst snd]. rewrite E1. cbn [bind]. split; [exact Eh|]. split; [exact V2|]. split; [congruence|]. split; [|split].
      + intros u v. rewrite X2, X1. unfold ehit. cbn [existsb fst snd]. fold (ehit L u v). destruct (ehit L u v); [rewrite orb_true_r; reflexivity|]. rewrite orb_false_r. destruct (pair_hit s t u v) eqn:PH; [|reflexivity]. symmetry. eapply g2_hit; eauto.
      + intros u. destruct (same_frame_at _ _ F1 P1 u) as [A1 [A2 [A3 A4]]]. destruct (O2 u) as [B1 [B2 [B3 B4]]]. unfold same_at. rewrite B1, B2, B3, B4. auto.
      + destruct I2 as [B1 [B2 B3]]. unfold same_io. rewrite B1, B2, B3. auto.
  Qed.
  (** ** 4. changed edge types *)
  Lemma phase_etypes : forall L h, wfg h -> (forall s t e, In ((s, t), e) L -> In s (vertices h) /\ In t (vertices h) /\ edge_type g2 s t = Some e) ->
    exists h', foldM (fun g (et : (nat * nat) * etype) => set_edge_type (fst (fst et)) (snd (fst et)) (snd et) g) L h = Ok h' /\ wfg h' /\ vertices h' = vertices h /\
    (forall u v, edge_type h' u v = if ehit L u v then edge_type g2 u v else edge_type h u v) /\ (forall u, same_at h h' u) /\ same_io h h'.
  Proof.
    induction L as [|[[s t] e] L IH]; intros h W H.
    - exists h. split; [reflexivity|]. split; [exact W|]. split; [reflexivity|]. split; [reflexivity|]. split; [intros; repeat split|repeat split].
    - destruct (H s t e (or_introl eq_refl)) as [Is [It E2]]. destruct (set_edge_type_ok s t e h Is It) as [h1 E1].
      destruct (set_edge_type_spec _ _ _ _ _ W E1) as [V1 [F1 [P1 [S1 [_ [_ X1]]]]]]. pose proof F1 as [VV1 [_ [I1 [O1 _]]]].
      destruct (IH h1 V1) as [h2 [Eh [V2 [VV2 [X2 [O2 I2]]]]]]. { intros a b c Hc. rewrite VV1. apply (H a b c). right. exact Hc. }
      exists h2. cbn [foldM fst snd]. rewrite E1. cbn [bind]. split; [exact Eh|]. split; [exact V2|]. split; [congruence|]. split; [|split].
      + intros u v. rewrite X2, X1. unfold ehit. cbn [existsb fst snd]. fold (ehit L u v). destruct (ehit L u v); [rewrite orb_true_r; reflexivity|]. rewrite orb_false_r. destruct (pair_hit s t u v) eqn:PH; [|reflexivity]. symmetry. eapply g2_hit; eauto.
      + intros u. assert (PP : forall u, phase h1 u = phase h u) by (intros; unfold phase; rewrite P1; reflexivity). destruct (same_frame_at _ _ F1 PP u) as [A1 [A2 [A3 A4]]]. destruct (O2 u) as [B1 [B2 [B3 B4]]]. unfold same_at. rewrite B1, B2, B3, B4. auto.
      + destruct I2 as [B1 [B2 B3]]. unfold same_io. rewrite B1, B2, B3. auto.
  Qed.

  (** ** 5. changed positions, types and phases of old vertices *)
  Definition pick {A} (dd : dict A) (u : nat) (old : A) : A := if nmem u (d_newv d) then old else match dget u dd with Some x => x | None => old end.
  Lemma pick_cons : forall A k (x : A) dd u old, ~ In k (dkeys dd) -> pick dd u (if nmem k (d_newv d) then old else if Nat.eqb u k then x else old) = pick ((k, x) :: dd) u old.
  Proof.
    intros A k x dd u old N. unfold pick. cbn [dget]. destruct (Nat.eqb_spec u k) as [->|D]; [|destruct (nmem k (d_newv d)); reflexivity]. destruct (nmem k (d_newv d)); [reflexivity|]. apply dget_none in N. rewrite N. reflexivity.
  Qed.
  Lemma fold_pos : forall dd h, wfg h -> NoDup (dkeys dd) -> let h' := fold_left (fun g (vp : nat * (Qc * Qc)) => if nmem (fst vp) (d_newv d) then g else set_position (fst vp) (snd vp) g) dd h in
    wfg h' /\ gadj h' = gadj h /\ gty h' = gty h /\ gphase h' = gphase h /\ same_io h h' /\ forall u, (qubit h' u, row h' u) = pick dd u (qubit h u, row h u).
  Proof.
    induction dd as [|[k x] dd IH]; intros h W ND; cbn [fold_left].
    - split; [exact W|]. repeat split; try reflexivity. intros u. unfold pick. destruct (nmem u (d_newv d)); reflexivity.
    - simpl in ND. inversion ND as [|? ? N ND']; subst. cbn [fst snd]. set (h1 := if nmem k (d_newv d) then h else set_position k x h).
      assert (Q : wfg h1 /\ gadj h1 = gadj h /\ gty h1 = gty h /\ gphase h1 = gphase h /\ same_io h h1 /\ forall u, (qubit h1 u, row h1 u) = if nmem k (d_newv d) then (qubit h u, row h u) else if Nat.eqb u k then x else (qubit h u, row h u)).
      { subst h1. destruct (nmem k (d_newv d)); [split; [exact W|repeat split; reflexivity]|]. split; [apply wfg_pos; exact W|]. repeat split; try reflexivity. intros u. rewrite qubit_pos, row_pos. destruct (Nat.eqb u k); [destruct x; reflexivity|reflexivity]. }
      destruct Q as [V1 [A1 [T1 [P1 [I1 X1]]]]]. destruct (IH h1 V1 ND') as [V2 [A2 [T2 [P2' [I2 X2]]]]]. split; [exact V2|]. split; [congruence|]. split; [congruence|]. split; [congruence|]. split.
      + destruct I1 as [? [? ?]], I2 as [? [? ?]]. repeat split; congruence.
      + intros u. rewrite X2, X1. apply pick_cons. exact N.
  Qed.
  Lemma fold_types : forall dd h, wfg h -> NoDup (dkeys dd) -> (forall k, In k (dkeys dd) -> In k (vertices h)) -> let h' := fold_left (fun g (vt : nat * vtype) => if nmem (fst vt) (d_newv d) then g else set_type (fst vt) (snd vt) g) dd h in
    wfg h' /\ gadj h' = gadj h /\ gphase h' = gphase h /\ gqindex h' = gqindex h /\ grindex h' = grindex h /\ same_io h h' /\ forall u, vty h' u = pick dd u (vty h u).
  Proof.
    induction dd as [|[k x] dd IH]; intros h W ND HK; cbn [fold_left].
    - split; [exact W|]. repeat split; try reflexivity. intros u. unfold pick. destruct (nmem u (d_newv d)); reflexivity.
    - simpl in ND. inversion ND as [|? ? N ND']; subst. cbn [fst snd]. set (h1 := if nmem k (d_newv d) then h else set_type k x h).
      assert (Q : wfg h1 /\ gadj h1 = gadj h /\ gphase h1 = gphase h /\ gqindex h1 = gqindex h /\ grindex h1 = grindex h /\ same_io h h1 /\ forall u, vty h1 u = if nmem k (d_newv d) then vty h u else if Nat.eqb u k then x else vty h u).
      { subst h1. destruct (nmem k (d_newv d)); [split; [exact W|repeat split; reflexivity]|]. split; [apply set_type_wfg; [exact W|apply HK; simpl; auto]|]. repeat split; try reflexivity. intros u. rewrite vty_set_type. reflexivity. }
      destruct Q as [V1 [A1 [P1 [Q1 [R1 [I1 X1]]]]]]. destruct (IH h1 V1 ND') as [V2 [A2 [P2' [Q2 [R2 [I2 X2]]]]]]. { intros k' Hk. unfold vertices. rewrite A1. apply HK. simpl. auto. }
      split; [exact V2|]. repeat (split; [congruence|]). split.
      + destruct I1 as [? [? ?]], I2 as [? [? ?]]. repeat split; congruence.
      + intros u. rewrite X2, X1. apply pick_cons. exact N.
  Qed.
  Lemma fold_phases : forall dd h, wfg h -> NoDup (dkeys dd) -> (forall k x, In (k, x) dd -> In k (vertices h) /\ in02 x) -> let h' := fold_left (fun g (va : nat * Qc) => if nmem (fst va) (d_newv d) then g else set_phase (fst va) (snd va) g) dd h in
    wfg h' /\ gadj h' = gadj h /\ gty h' = gty h /\ gqindex h' = gqindex h /\ grindex h' = grindex h /\ same_io h h' /\ forall u, phase h' u = pick dd u (phase h u).
  Proof.
    induction dd as [|[k x] dd IH]; intros h W ND HK; cbn [fold_left].
    - split; [exact W|]. repeat split; try reflexivity. intros u. unfold pick. destruct (nmem u (d_newv d)); reflexivity.
    - simpl in ND. inversion ND as [|? ? N ND']; subst. cbn [fst snd]. set (h1 := if nmem k (d_newv d) then h else set_phase k x h). destruct (HK k x (or_introl eq_refl)) as [Hk Hx].
      assert (Q : wfg h1 /\ gadj h1 = gadj h /\ gty h1 = gty h /\ gqindex h1 = gqindex h /\ grindex h1 = grindex h /\ same_io h h1 /\ forall u, phase h1 u = if nmem k (d_newv d) then phase h u else if Nat.eqb u k then x else phase h u).
      { subst h1. destruct (nmem k (d_newv d)); [split; [exact W|repeat split; reflexivity]|]. split; [apply set_phase_wfg; auto|]. repeat split; try reflexivity. intros u. rewrite phase_set_phase, (qmod2_id x (proj1 Hx) (proj2 Hx)). reflexivity. }
      destruct Q as [V1 [A1 [P1 [Q1 [R1 [I1 X1]]]]]]. destruct (IH h1 V1 ND') as [V2 [A2 [P2' [Q2 [R2 [I2 X2]]]]]]. { intros k' x' Hk'. unfold vertices. rewrite A1. apply HK. right. exact Hk'. }
      split; [exact V2|]. repeat (split; [congruence|]). split.
      + destruct I1 as [? [? ?]], I2 as [? [? ?]]. repeat split; congruence.
      + intros u. rewrite X2, X1. apply pick_cons. exact N.
  Qed.

  (** ** the whole of apply_diff *)
  Lemma apply_diff_ok : exists g', apply_diff d g1 = Ok g' /\ wfg g' /\ (forall v, In v (vertices g') <-> In v (vertices g2)) /\ (forall u v, edge_type g' u v = edge_type g2 u v) /\
    (forall v, In v (vertices g2) -> same_at g2 g' v) /\ gscalar g' = gscalar g1 /\
    ginputs g' = filter (fun v => nmem v (vertices g2) || negb (nmem v (vertices g1))) (ginputs g1) /\ goutputs g' = filter (fun v => nmem v (vertices g2) || negb (nmem v (vertices g1))) (goutputs g1).
  Proof.
    destruct phase_rem as [ga [gb [Ea [Eb [Wb [Vb [Xb [Ab [Sb [Ib Ob]]]]]]]]]]. unfold apply_diff. rewrite Ea. cbn [bind]. rewrite Eb. cbn [bind].
    destruct (phase_add (d_newv d) gb Wb) as [gc [Ec [Wc [Vc [Xc [Oc [Nc [Sc [Ic Oc']]]]]]]]].
    { unfold d, calculate_diff; cbn [d_newv]. apply so_nd, NoDup_filter, W2. } { intros v Hv. split; [exact Hv|]. apply newv_in in Hv. rewrite Vb. tauto. }
    rewrite Ec. cbn [bind]. assert (VC : forall v, In v (vertices gc) <-> In v (vertices g2)).
    { intros v. rewrite Vc, in_app_iff, Vb, newv_in. destruct (in_dec Nat.eq_dec v (vertices g1)); tauto. }
    destruct (phase_edges (d_newe d) gc Wc) as [gd [Ed [Wd [Vd [Xd [Ad [Sd [Id Od]]]]]]]].
    { unfold d, calculate_diff; cbn [d_newe]. rewrite map_map. cbn [fst]. rewrite map_id. apply eo_nd, NoDup_filter, edges_nd; auto. }
    { intros s t e H. apply newe_in in H. destruct H as [L [E2 E1]]. rewrite !VC, Xc, Xb. unfold mid. rewrite E2. split; [exact L|]. split; [eapply edge_in_l; eauto|]. split; [eapply edge_in_r; eauto|]. auto. }
    rewrite Ed. cbn [bind].
    match goal with |- context[fold_left ?F (d_pos d) gd] => set (ge := fold_left F (d_pos d) gd) end.
    destruct (fold_pos (d_pos d) gd Wd) as [We [Ae [Te [Pe [[Se [Ie Oe]] Xe]]]]]. { unfold d, calculate_diff; cbn [d_pos]. apply (rec_nd _ _ (fh_pos g1 g2)), so_nd, W2. }
    cbv zeta in *. change (fold_left _ (d_pos d) gd) with ge in We, Ae, Te, Pe, Se, Ie, Oe, Xe.
    match goal with |- context[fold_left ?F (d_types d) ge] => set (gf := fold_left F (d_types d) ge) end.
    destruct (fold_types (d_types d) ge We) as [Wf [Af [Pf [Qf [Rf [[Sf [If Of]] Xf]]]]]].
    { unfold d, calculate_diff; cbn [d_types]. apply (rec_nd _ _ (fh_type g1 g2)), so_nd, W2. }
    { intros k Hk. unfold d, calculate_diff in Hk; cbn [d_types] in Hk. apply (rec_keys _ _ (fh_type g1 g2)) in Hk. rewrite so_in in Hk. unfold vertices. rewrite Ae. change (In k (vertices gd)). rewrite Vd. apply VC. exact Hk. }
    cbv zeta in *. change (fold_left _ (d_types d) ge) with gf in Wf, Af, Pf, Qf, Rf, Sf, If, Of, Xf.
    match goal with |- context[fold_left ?F (d_phases d) gf] => set (gh := fold_left F (d_phases d) gf) end.
    assert (VF : forall v, In v (vertices gf) <-> In v (vertices g2)). { intros v. unfold vertices at 1. rewrite Af, Ae. change (In v (vertices gd) <-> In v (vertices g2)). rewrite Vd. apply VC. }
    assert (NDp : NoDup (dkeys (d_phases d))) by (unfold d, calculate_diff; cbn [d_phases]; apply (rec_nd _ _ (fh_phase g1 g2)), so_nd, W2).
    destruct (fold_phases (d_phases d) gf Wf NDp) as [Wh [Ah [Th [Qh [Rh [[Sh [Ih Oh]] Xh]]]]]].
    { intros k x Hk. apply (in_dget _ _ _ NDp) in Hk. unfold d, calculate_diff in Hk; cbn [d_phases] in Hk. rewrite (rec_get _ _ (fh_phase g1 g2)) in Hk. destruct (nmem k (so (vertices g2))) eqn:M; [|discriminate]. apply nmem_spec in M. rewrite so_in in M.
      split; [apply VF; exact M|]. assert (x = phase g2 k) by (unfold h_phase in Hk; destruct (nmem k (vertices g1)), (qeqb (phase g1 k) (phase g2 k)), (qeqb (phase g2 k) 0%Qc); congruence). subst x. apply P2. exact M. }
    cbv zeta in *. change (fold_left _ (d_phases d) gf) with gh in Wh, Ah, Th, Qh, Rh, Sh, Ih, Oh, Xh.
    assert (VH : forall v, In v (vertices gh) <-> In v (vertices g2)). { intros v. unfold vertices at 1. rewrite Ah. apply VF. }
    destruct (phase_etypes (d_etypes d) gh Wh) as [gi [Ei [Wi [Vi [Xi [Ai [Si [Ii Oi]]]]]]]].
    { intros s t e H. apply etypes_in in H. destruct H as [_ H]. rewrite !VH. split; [eapply edge_in_l; eauto|]. split; [eapply edge_in_r; eauto|exact H]. }
    rewrite Ei. exists gi. split; [reflexivity|]. split; [exact Wi|]. split; [intros v; rewrite Vi; apply VH|].
    assert (EH : forall u v, edge_type gh u v = edge_type gd u v). { intros u v. unfold edge_type. rewrite Ah, Af, Ae. reflexivity. }
    split; [|split; [|split; [|split]]].
    - intros u v. rewrite Xi. destruct (ehit (d_etypes d) u v) eqn:H1; [reflexivity|]. rewrite EH, Xd. destruct (ehit (d_newe d) u v) eqn:H2; [reflexivity|]. rewrite Xc, Xb. unfold mid.
      destruct (edge_type g2 u v) as [e|] eqn:E2; [|reflexivity].
      assert (Q : forall s t, s < t -> edge_type g2 s t = Some e -> pair_hit s t u v = true -> edge_type g1 s t = Some e).
      { intros s t L E HP. destruct (edge_type g1 s t) as [x|] eqn:E1.
        - assert (D : x = e \/ x <> e) by (destruct x, e; auto; right; congruence). destruct D as [->|D]; [reflexivity|]. exfalso.
          assert (Y : In ((s, t), e) (d_etypes d)) by (apply etypes_all; auto; congruence).
          assert (Z : ehit (d_etypes d) u v = true) by (apply existsb_exists; exists ((s, t), e); auto). congruence.
        - exfalso. assert (Y : In ((s, t), e) (d_newe d)) by (apply newe_in; auto).
          assert (Z : ehit (d_newe d) u v = true) by (apply existsb_exists; exists ((s, t), e); auto). congruence. }
      destruct (Nat.lt_trichotomy u v) as [L|[->|L]].
      + apply Q; auto. unfold pair_hit. rewrite !Nat.eqb_refl. reflexivity.
      + rewrite N2 in E2. discriminate.
      + rewrite (wf_sym g1 W1). apply Q; auto; [rewrite (wf_sym g2 W2); exact E2|]. unfold pair_hit. rewrite !Nat.eqb_refl. apply orb_true_r.
    - intros v Hv. destruct (Ai v) as [B1 [B2 [B3 B4]]]. destruct (Ad v) as [D1 [D2 [D3 D4]]].
      assert (SV : nmem v (so (vertices g2)) = true) by (apply nmem_spec, so_in; exact Hv).
      assert (Fq : qubit gh v = qubit ge v /\ row gh v = row ge v) by (unfold qubit, row; rewrite Qh, Rh, Qf, Rf; auto). destruct Fq as [Fq Fr].
      assert (Ft : vty gh v = vty gf v) by (unfold vty; rewrite Th; reflexivity).
      assert (Ft2 : vty ge v = vty gd v) by (unfold vty; rewrite Te; reflexivity).
      assert (Fp : phase gf v = phase gd v) by (unfold phase; rewrite Pf, Pe; reflexivity).
      pose proof (Xe v) as Xev. unfold same_at. rewrite B1, B2, B3, B4, Fq, Fr, Ft, Xf, Xh, Ft2, Fp, D1, D2. unfold pick in *.
      destruct (nmem v (d_newv d)) eqn:NV.
      + apply nmem_spec in NV. destruct (Nc v NV) as [C1' [C2 [C3 C4]]]. injection Xev as Y1 Y2. rewrite Y1, Y2, D3, D4. auto.
      + apply nmem_false in NV. assert (I1 : In v (vertices g1)) by (destruct (in_dec Nat.eq_dec v (vertices g1)); auto; exfalso; apply NV, newv_in; auto).
        destruct (Oc v NV) as [C1' [C2 [C3 C4]]]. destruct (Ab v) as [F1 [F2 [F3 F4]]]; [apply Vb; auto|].
        unfold d, calculate_diff in Xev |- *; cbn [d_types d_phases d_pos] in Xev |- *. rewrite (rec_get _ _ (fh_pos g1 g2)), SV in Xev. rewrite (rec_get _ _ (fh_type g1 g2)), (rec_get _ _ (fh_phase g1 g2)), SV.
        unfold h_type, h_phase. unfold h_pos in Xev. replace (nmem v (vertices g1)) with true in Xev |- * by (symmetry; apply nmem_spec; exact I1).
        split; [|split].
        * destruct (vtype_eqb (vty g1 v) (vty g2 v)) eqn:E; [|reflexivity]. apply vtype_eqb_eq in E. congruence.
        * destruct (qeqb_spec (phase g1 v) (phase g2 v)); congruence.
        * destruct (qeqb (qubit g1 v) (qubit g2 v) && qeqb (row g1 v) (row g2 v)) eqn:E; injection Xev as Y1 Y2; [|auto]. apply andb_prop in E. destruct E as [Q1 Q2]. apply qeqb_eq in Q1, Q2. split; congruence.
    - congruence.
    - congruence.
    - congruence.
  Qed.
End Diff.

(** ** the value of the result, and what the difference leaves out *)
Lemma same_graph_sem : forall g g' b, wfg g -> wfg g' -> (forall v, In v (vertices g') <-> In v (vertices g)) -> (forall u v, edge_type g' u v = edge_type g u v) ->
  (forall v, In v (vertices g) -> same_at g g' v) -> (sem g' b * to_number (gscalar g) = sem g b * to_number (gscalar g'))%C.
Proof.
  intros g g' b W W' V X A.
  assert (PV : Permutation (vertices g') (vertices g)) by (apply NoDup_Permutation; [apply W'|apply W|exact V]).
  assert (PI : Permutation (internal g') (internal g)).
  { apply NoDup_Permutation; [apply NoDup_filter, W'|apply NoDup_filter, W|]. intros v. unfold internal. rewrite !filter_In, V. split; intros [H1 H2]; split; auto; destruct (A v H1) as [T _]; unfold isB in *; [rewrite <- T|rewrite T]; exact H2. }
  unfold sem. rewrite (sumv_perm _ _ PI (NoDup_filter _ (wf_nd g' W'))).
  rewrite (Cmult_comm _ (to_number (gscalar g))), (Cmult_comm _ (to_number (gscalar g'))), <- !sumv_scal. apply sumv_ext. intros y.
  rewrite (integL_perm g' _ _ y W' PV). unfold integL.
  rewrite (cprod_ext _ (fun v => pw g' v (y v)) (fun v => pw g v (y v))). 2:{ intros v Hv. destruct (A v Hv) as [T [P _]]. unfold pw, isB. rewrite T, P. reflexivity. }
  rewrite (pprod_ext _ (fun u v => ew g' u v (y u) (y v)) (fun u v => ew g u v (y u) (y v))). 2:{ intros u v Hu Hv. destruct (A u Hu) as [Tu _]. destruct (A v Hv) as [Tv _]. unfold ew, isX. rewrite Tu, Tv, X. reflexivity. }
  ring.
Qed.

Lemma diff_apply : forall g1 g2 so eo, wfg g1 -> wfg g2 -> noloop g1 -> noloop g2 -> allph in02 g2 -> set_order so -> (forall l, Permutation (eo l) l) ->
  exists g', apply_diff (calculate_diff so eo g1 g2) g1 = Ok g' /\ wfg g' /\
    (forall v, In v (vertices g') <-> In v (vertices g2)) /\ (forall u v, edge_type g' u v = edge_type g2 u v) /\
    (forall v, In v (vertices g2) -> vty g' v = vty g2 v /\ phase g' v = phase g2 v /\ qubit g' v = qubit g2 v /\ row g' v = row g2 v) /\
    (forall b, sem g' b * to_number (gscalar g2) = sem g2 b * to_number (gscalar g1))%C.
Proof.
  intros g1 g2 so eo W1 W2 N1 N2 P2 SO EO. destruct (apply_diff_ok g1 g2 so eo W1 W2 N1 N2 P2 SO EO) as [g' [E [W [V [X [A [S _]]]]]]].
  exists g'. split; [exact E|]. split; [exact W|]. split; [exact V|]. split; [exact X|]. split; [exact A|]. intros b. rewrite (same_graph_sem g2 g' b W2 W V X A), S. reflexivity.
Qed.

Definition bare_wire : graph := on_scalar (s_add_power 2) (mkgraph [(BOUNDARY, 0%Qc); (BOUNDARY, 0%Qc)] [(0,1,SIMPLE)] [0] [1]).
Lemma diff_interface : exists g1 g2 g', wfg g1 /\ wfg g2 /\ noloop g1 /\ noloop g2 /\ allph in02 g2 /\
  apply_diff (calculate_diff (fun l => l) (fun l => l) g1 g2) g1 = Ok g' /\
  ginputs g' <> ginputs g2 /\ goutputs g' <> goutputs g2 /\ exists b, sem g' b <> sem g2 b.
Proof.
  exists empty_graph, bare_wire.
  assert (W2 : wfg bare_wire) by (apply wfgb_ok; vm_compute; reflexivity).
  assert (N2 : noloop bare_wire) by (apply noloopb_ok; vm_compute; reflexivity).
  assert (P2 : allph in02 bare_wire).
  { intros v Hv. replace (vertices bare_wire) with [0; 1] in Hv by (vm_compute; reflexivity). destruct Hv as [<-|[<-|[]]]; split; vm_compute; congruence. }
  destruct (apply_diff_ok empty_graph bare_wire (fun l => l) (fun l => l) empty_wfg W2 (fun v => eq_refl) N2 P2 (fun l => Permutation_refl l) (fun l => Permutation_refl l)) as [g' [E [W [V [X [A [S [I O]]]]]]]].
  exists g'. split; [apply empty_wfg|]. split; [exact W2|]. split; [intros v; reflexivity|]. split; [exact N2|]. split; [exact P2|]. split; [exact E|].
  split; [rewrite I; discriminate|]. split; [rewrite O; discriminate|]. exists (fun _ => false). intros Q.
  pose proof (same_graph_sem bare_wire g' (fun _ => false) W2 W V X A) as Y. rewrite Q, S in Y.
  assert (N : to_number (gscalar bare_wire) = (C1 + C1)%C).
  { change (gscalar bare_wire) with (s_add_power 2 scalar_init). rewrite add_power_number, sq2p_2, AlgUse.scalar_init_number. ring. }
  assert (Z : sem bare_wire (fun _ => false) = (C1 + C1)%C). { unfold sem. replace (internal bare_wire) with (@nil nat) by (vm_compute; reflexivity). replace (vertices bare_wire) with [0; 1] by (vm_compute; reflexivity). cbn [sumv]. unfold integL. rewrite N.
    cbn [cprod pprod]. replace (pw bare_wire 0 false) with C1 by (vm_compute; reflexivity). replace (pw bare_wire 1 false) with C1 by (vm_compute; reflexivity). replace (ew bare_wire 0 1 false false) with C1 by (vm_compute; reflexivity). ring. }
  rewrite Z, N in Y. change (gscalar empty_graph) with scalar_init in Y.
  rewrite AlgUse.scalar_init_number in Y. apply (sq2p_neq0 2). rewrite sq2p_2.
  transitivity ((C1 + C1) * (C1 + C1) - (C1 + C1) * C1)%C; [ring|]. rewrite Y. ring.
Qed.
