(** copy, adjoint, tensor, merge and subgraph_from_vertices *)
From Coq Require Import Reals ZArith QArith Qcanon List Bool Arith Lia Permutation FunctionalExtensionality.
From Verif Require Import CNum Base ScalarModel ScalarProofs GraphModel GraphSem SumLemmas GraphProofs GraphOps RulesModel RuleLemmas
  SpiderProofs IsoProofs IdProofs LcompProofs PivotProofs GrowProofs StoreProofs InvProofs BfixProofs TotalProofs GrowTotal
  GateModel CircSpec GateProofs AmpProofs CircGraphModel CircGraphProofs CircGraphFacts VerifyProofs GraphAlgModel GraphAlgProofs.
Import ListNotations.
Open Scope C_scope.

Lemma dget_vty : forall h v, wfg h -> In v (vertices h) -> dget v (gty h) = Some (vty h v).
Proof.
  intros h v W H. apply (wf_ty h W) in H. unfold vty. destruct (dget v (gty h)) eqn:E; auto. apply dget_none in E. contradiction.
Qed.
Lemma dget_phase : forall h v, wfg h -> In v (vertices h) -> dget v (gphase h) = Some (phase h v).
Proof.
  intros h v W H. apply (wf_ph h W) in H. unfold phase. destruct (dget v (gphase h)) eqn:E; auto. apply dget_none in E. contradiction.
Qed.
Lemma add_vertex_grown : forall t q r p g g' w, wfg g -> add_vertex t q r (Some p) g = (g', w) -> grown g g' w t p.
Proof.
  intros t q r p g g' w W E. destruct (add_vertex_spec _ _ _ _ _ _ _ W E) as [Ev [W' [V [ET [_ [T [P [I [O S]]]]]]]]].
  constructor; auto; [| |unfold add_vertex in E; cbn [add_vertices fst seq fold_left] in E; injection E as E _; subst g'; destruct (qeqb p 0%Qc); cbn; lia].
  - intros R. apply (add_vertex_rows _ _ _ _ _ _ _ W R E).
  - intros Q u Hu. rewrite V in Hu. unfold add_vertex in E. cbn [add_vertices fst seq fold_left] in E. injection E as E _.
    assert (QI : gqindex g' = dset (gvindex g) q (gqindex g)) by (subst g'; destruct (qeqb p 0%Qc); reflexivity).
    rewrite QI, dget_dset. destruct (Nat.eqb_spec u (gvindex g)); [discriminate|]. apply Q. apply in_app_or in Hu. destruct Hu as [Hu|[Hu|[]]]; auto. congruence.
Qed.
Lemma grown_pos : forall g g' g2 w t p, grown g g' w t p -> gadj g2 = gadj g' -> gty g2 = gty g' -> gphase g2 = gphase g' -> gvindex g2 = gvindex g' ->
  ginputs g2 = ginputs g' -> goutputs g2 = goutputs g' -> gscalar g2 = gscalar g' -> (forall v, dget v (grindex g') <> None -> dget v (grindex g2) <> None) ->
  (forall v, dget v (gqindex g') <> None -> dget v (gqindex g2) <> None) -> grown g g2 w t p.
Proof.
  intros g g' g2 w t p G A T P V I O S R Q. assert (VV : vertices g2 = vertices g') by (unfold vertices; rewrite A; auto).
  destruct G. constructor; auto; try congruence.
  - apply (frame_only_wfg g'); auto.
  - intros u v. rewrite <- gn_e. unfold edge_type. rewrite A. auto.
  - intros u. rewrite <- gn_t. unfold vty. rewrite T. auto.
  - intros u. rewrite <- gn_p. unfold phase. rewrite P. auto.
  - intros X u. rewrite VV. intros Hu. apply R, gn_r; auto.
  - intros X u. rewrite VV. intros Hu. apply Q, gn_q; auto.
Qed.
Definition ksign (adj : bool) (p : Qc) : Qc := if adj then (- p)%Qc else p.
Lemma copy_vertex_ok : forall adj maxr h g tab v, wfg h -> In v (vertices h) -> wfg g ->
  exists g' w, copy_vertex adj maxr h (g, tab) v = Ok (g', dset v w tab) /\ grown g g' w (vty h v) (ksign adj (phase h v)).
Proof.
  intros adj maxr h g tab v Wh Hv W. unfold copy_vertex. rewrite dget_vty, dget_phase by auto. cbn [of_opt bind].
  destruct (add_vertex (vty h v) (- (1))%Qc (- (1))%Qc (Some (if adj then (- phase h v)%Qc else phase h v)) g) as [g1 w] eqn:E.
  eexists; exists w. split; [reflexivity|]. eapply grown_pos; [eapply add_vertex_grown; eauto|..]; destruct (dget v (gqindex h)), (dget v (grindex h)); try reflexivity;
   intros u; cbn [set_qubit set_row with_qindex with_rindex gqindex grindex]; rewrite ?dget_dset; try destruct (Nat.eqb u w); auto; discriminate.
Qed.
Lemma compose_vertex_ok : forall off h g tab v, wfg h -> In v (vertices h) -> wfg g ->
  exists g' w, compose_vertex off h (g, tab) v = Ok (g', dset v w tab) /\ grown g g' w (vty h v) (phase h v).
Proof.
  intros off h g tab v Wh Hv W. unfold compose_vertex. rewrite vtype_r_ok by auto. cbn [bind].
  destruct (add_vertex (vty h v) (qubit h v) (off + row h v)%Qc (Some (phase h v)) g) as [g1 w] eqn:E.
  eexists; exists w. split; [reflexivity|]. eapply add_vertex_grown; eauto.
Qed.
Lemma dict_vertex_ok : forall dq h g tab v, wfg h -> In v (vertices h) -> dget v (grindex h) <> None -> dget v (gqindex h) <> None -> wfg g ->
  exists g' w, dict_vertex dq h (g, tab) v = Ok (g', dset v w tab) /\ grown g g' w (vty h v) (phase h v).
Proof.
  intros dq h g tab v Wh Hv R Q W. unfold dict_vertex. rewrite dget_vty, dget_phase by auto. cbn [of_opt bind].
  destruct (dget v (gqindex h)) as [q|]; [|congruence]. destruct (dget v (grindex h)) as [r|]; [|congruence]. cbn [of_opt bind].
  destruct (add_vertex (vty h v) (q + dq)%Qc r (Some (phase h v)) g) as [g1 w] eqn:E.
  eexists; exists w. split; [reflexivity|]. eapply add_vertex_grown; eauto.
Qed.
Lemma mapM_vget : forall tab L, (forall v, In v L -> dget v tab = Some (tf tab v)) -> mapM (vget tab) L = Ok (map (tf tab) L).
Proof.
  intros tab. induction L as [|a L IH]; intros H; simpl; auto. unfold vget at 1. rewrite H by (simpl; auto). cbn [of_opt bind].
  rewrite IH by (intros; apply H; simpl; auto). auto.
Qed.

(** ** Invariants *)
Record zcore (g : graph) : Prop := mkzcore {
  zc_wf : wfg g; zc_nl : noloop g; zc_zx : zx_types g; zc_ph : forall v, In v (vertices g) -> in02 (phase g v);
  zc_deg : bdeg g; zc_b0 : bphz g; zc_rows : rows_ok g }.
Lemma zinv_core : forall g, zinv g -> zcore g.
Proof. intros g [[]]. constructor; auto. Qed.
Lemma core_zinv : forall g, zcore g -> (forall v, In v (ginputs g) \/ In v (goutputs g) <-> In v (vertices g) /\ vty g v = BOUNDARY) -> zinv g.
Proof.
  intros g [] H. constructor; auto; [constructor; auto|].
  - intros v Hv. apply H in Hv. destruct Hv. split; auto. unfold isB. rewrite H1. auto.
  - intros b Hb T. apply H. auto.
Qed.
Lemma zinv_io : forall g, zinv g -> forall v, In v (ginputs g) \/ In v (goutputs g) <-> In v (vertices g) /\ vty g v = BOUNDARY.
Proof.
  intros g Z v. split; [intros H; apply (zx_io _ (zi_zx _ Z)) in H; destruct H as [A B]; split; auto; apply vtype_eqb_eq; auto|].
  intros [A B]. apply Z; auto.
Qed.
Lemma graft_core : forall g h k f r, zcore g -> zcore h -> k 0%Qc = 0%Qc -> graft g h k (vertices h) f r -> zcore r.
Proof.
  intros g h k f r G H K GR. destruct (graft_fresh g _ f r (gf_wf _ _ _ _ _ _ GR) (gf_v _ _ _ _ _ _ GR)) as [I [Fr Vr]].
  assert (CR := graft_cross _ _ _ _ _ _ (zc_wf _ G) GR). destruct GR.
  assert (SP : forall v, In v (vertices r) -> In v (vertices g) \/ exists w, In w (vertices h) /\ v = f w).
  { intros v Hv. rewrite gf_v in Hv. apply in_app_or in Hv. destruct Hv as [Hv|Hv]; auto. apply in_map_iff in Hv. destruct Hv as [w [<- Hw]]. right. eauto. }
  assert (OUT : forall u v, edge_type r u v <> None -> In v (vertices r)) by (intros u v E; rewrite (wf_sym r) in E by auto; eapply edge_type_in_l; eauto).
  assert (CR' : forall w u, In w (vertices h) -> In u (vertices g) -> edge_type r (f w) u = None) by (intros; rewrite wf_sym by auto; apply CR; auto; apply in_map; auto).
  constructor; auto.
  - intros v. destruct (edge_type r v v) eqn:E; auto. exfalso. assert (Hv := edge_in_l _ _ _ _ E). destruct (SP v Hv) as [X|[w [X ->]]].
    + rewrite gf_oe, (zc_nl _ G) in E by auto. discriminate.
    + rewrite gf_ne, (zc_nl _ H) in E by auto. discriminate.
  - intros v Hv. destruct (SP v Hv) as [X|[w [X ->]]]; [rewrite (proj1 (gf_ot v X)); apply G; auto|rewrite (proj1 (gf_nt w X)); apply H; auto].
  - intros v Hv. destruct (SP v Hv) as [X|[w [X ->]]]; [rewrite (proj2 (gf_ot v X)); apply G; auto|rewrite (proj2 (gf_nt w X)); apply qmod2_range].
  - intros v Hv T. destruct (SP v Hv) as [X|[w [X ->]]].
    + rewrite (proj1 (gf_ot v X)) in T. destruct (zc_deg _ G v X T) as [u Hu]. exists u. intros a. rewrite gf_oe by auto. auto.
    + rewrite (proj1 (gf_nt w X)) in T. destruct (zc_deg _ H w X T) as [u Hu]. exists (f u).
      assert (Iu : In u (vertices h)) by (eapply edge_type_in_l; rewrite wf_sym by apply H; apply (proj2 (Hu u) eq_refl)).
      intros a. split.
      * intros E. destruct (SP a (OUT _ _ E)) as [Y|[w' [Y ->]]]; [rewrite CR' in E by auto; congruence|]. rewrite gf_ne in E by auto. f_equal. apply Hu. auto.
      * intros ->. rewrite gf_ne by auto. apply Hu. auto.
  - intros v Hv T. destruct (SP v Hv) as [X|[w [X ->]]].
    + rewrite (proj1 (gf_ot v X)) in T. rewrite (proj2 (gf_ot v X)). apply G; auto.
    + rewrite (proj1 (gf_nt w X)) in T. rewrite (proj2 (gf_nt w X)). rewrite (zc_b0 _ H) by auto. rewrite K. apply qmod2_0.
  - apply gf_r. apply G.
Qed.
Lemma empty_core : forall i o s, zcore (set_outputs o (set_inputs i (with_scalar s empty_graph))).
Proof.
  intros. constructor; try (intros v H; destruct H; fail).
  - apply wfg_io. apply (frame_only_wfg empty_graph); auto. apply empty_wfg.
  - intros v. reflexivity.
Qed.

(** ** copy and adjoint *)
Lemma copy_ok : forall adj h, zinv h -> exists r f, g_copy adj h = Ok r /\
  graft (set_outputs (map f (if adj then ginputs h else goutputs h)) (set_inputs (map f (if adj then goutputs h else ginputs h)) (with_scalar (scalar_copy adj (gscalar h)) empty_graph)))
    h (ksign adj) (vertices h) f r /\ qubs_ok r /\ rows_ok r /\ vertices r = seq 0 (num_vertices h).
Proof.
  intros adj h Z. assert (W := zx_wf _ (zi_zx _ Z)). unfold g_copy.
  destruct (vertices_graft h (ksign adj) (vertices h) (copy_vertex adj (depth_rows h) h)) with (L := vertices h) (g := with_scalar (scalar_copy adj (gscalar h)) empty_graph) (tab := @nil (nat * nat))
    as [g' [tab [E [_ [_ [HT [SQ V]]]]]]].
  - intros g tab v Wg Hv. apply copy_vertex_ok; auto.
  - apply (frame_only_wfg empty_graph); auto. apply empty_wfg.
  - apply W.
  - intros v; auto.
  - intros v _ [].
  - assert (HI : forall v, In v (ginputs h) -> dget v tab = Some (tf tab v)) by (intros v Hv; apply HT; apply (zx_io _ (zi_zx _ Z)); auto).
    assert (HO : forall v, In v (goutputs h) -> dget v tab = Some (tf tab v)) by (intros v Hv; apply HT; apply (zx_io _ (zi_zx _ Z)); auto).
    cbn zeta. match goal with |- context [foldM ?F ?L ?S] => replace (foldM F L S) with (Ok (g', tab)) by (symmetry; exact E) end. cbn [bind]. rewrite !mapM_vget by auto. cbn [bind]. destruct (edges_all h W) as [N HE].
    set (i := map (tf tab) (if adj then goutputs h else ginputs h)). set (o := map (tf tab) (if adj then ginputs h else goutputs h)).
    replace (if adj then set_outputs (map (tf tab) (ginputs h)) (set_inputs (map (tf tab) (goutputs h)) g')
             else set_outputs (map (tf tab) (goutputs h)) (set_inputs (map (tf tab) (ginputs h)) g')) with (set_outputs o (set_inputs i g')) by (unfold i, o; destruct adj; auto).
    destruct (graft_all (set_outputs o (set_inputs i (with_scalar (scalar_copy adj (gscalar h)) empty_graph))) h (ksign adj) (vertices h) (set_outputs o (set_inputs i g')) tab (edges h)) as [r [Er G]]; auto.
    + apply empty_core. + apply (zi_zx _ Z). + apply vgraft_io. auto.
    + exists r, (tf tab). split; auto. split; auto. split; [apply (gf_q _ _ _ _ _ _ G); intros v []|]. split; [apply (gf_r _ _ _ _ _ _ G); intros v []|].
      rewrite (gf_v _ _ _ _ _ _ G). exact SQ.
Qed.
Lemma graft_io_iff : forall h k f r i o s, zinv h -> graft (set_outputs o (set_inputs i (with_scalar s empty_graph))) h k (vertices h) f r -> 
  (forall v, In v i \/ In v o <-> In v (map f (ginputs h)) \/ In v (map f (goutputs h))) ->
  forall v, In v (ginputs r) \/ In v (goutputs r) <-> In v (vertices r) /\ vty r v = BOUNDARY.
Proof.
  intros h k f r i o s Z G H v. rewrite (gf_i _ _ _ _ _ _ G), (gf_o _ _ _ _ _ _ G). cbn [ginputs goutputs set_inputs set_outputs]. rewrite H.
  rewrite !in_map_iff, (gf_v _ _ _ _ _ _ G). cbn [vertices set_inputs set_outputs with_scalar gadj empty_graph dkeys map app]. rewrite in_map_iff. split.
  - intros X. assert (Y : exists w, f w = v /\ (In w (ginputs h) \/ In w (goutputs h))) by (destruct X as [[w []]|[w []]]; eauto).
    destruct Y as [w [<- Y]]. apply (zinv_io _ Z) in Y. destruct Y as [A B]. split; eauto. rewrite (proj1 (gf_nt _ _ _ _ _ _ G w A)). auto.
  - intros [[w [<- A]] B]. rewrite (proj1 (gf_nt _ _ _ _ _ _ G w A)) in B. destruct (proj2 (zinv_io _ Z w) (conj A B)) as [X|X]; eauto.
Qed.
Lemma nth_map' : forall (f : nat -> nat) l j, (j < length l)%nat -> f (nth j l 0%nat) = nth j (map f l) 0%nat.
Proof. intros f l j H. rewrite (nth_indep (map f l) 0%nat (f 0%nat)) by (rewrite map_length; auto). rewrite map_nth. auto. Qed.
Lemma map_nodup_on : forall (f : nat -> nat) L V, inj_on f V -> incl L V -> NoDup L -> NoDup (map f L).
Proof.
  intros f. induction L as [|a L IH]; intros V I H N; simpl; [constructor|]. apply NoDup_cons_iff in N. destruct N as [N1 N2]. constructor.
  - intros X. apply in_map_iff in X. destruct X as [b [E Hb]]. apply I in E; [subst; auto|apply H; simpl; auto|apply H; simpl; auto].
  - apply (IH V); auto. intros v Hv. apply H. simpl; auto.
Qed.
Lemma zinv_incl : forall g, zinv g -> incl (ginputs g) (vertices g) /\ incl (goutputs g) (vertices g).
Proof. intros g Z. split; intros v Hv; apply (zx_io _ (zi_zx _ Z)); auto. Qed.
Lemma NoDup_app_comm' : forall (a b : list nat), NoDup (a ++ b) -> NoDup (b ++ a).
Proof. intros a b H. apply (Permutation_NoDup (Permutation_app_comm a b) H). Qed.
(** a copy has the same shape up to renaming *)
Record iso (h : graph) (f : nat -> nat) (r : graph) : Prop := mkiso {
  is_inj : inj_on f (vertices h); is_v : vertices r = map f (vertices h);
  is_t : forall v, In v (vertices h) -> vty r (f v) = vty h v;
  is_e : forall u v, In u (vertices h) -> In v (vertices h) -> edge_type r (f u) (f v) = edge_type h u v }.
Theorem copy_val : forall h, zinv h -> io_ok h -> exists r f, g_copy false h = Ok r /\
  iso h f r /\ (forall v, In v (vertices h) -> phase r (f v) = phase h v) /\ vertices r = seq 0 (num_vertices h) /\
  ginputs r = map f (ginputs h) /\ goutputs r = map f (goutputs h) /\
  zinv r /\ io_ok r /\ qubs_ok r /\ to_number (gscalar r) = to_number (gscalar h) /\ forall i y, val r i y = val h i y.
Proof.
  intros h Z N. destruct (copy_ok false h Z) as [r [f [E [G [Q [R S]]]]]]. exists r, f. split; auto. cbn [ksign] in G.
  assert (W := zx_wf _ (zi_zx _ Z)). destruct (zinv_incl _ Z) as [I1 I2].
  destruct (graft_fresh _ _ f r (gf_wf _ _ _ _ _ _ G) (gf_v _ _ _ _ _ _ G)) as [I _].
  assert (GI : ginputs r = map f (ginputs h)) by apply G. assert (GO : goutputs r = map f (goutputs h)) by apply G.
  assert (N' : io_ok r).
  { unfold io_ok. rewrite GI, GO, <- map_app. apply (map_nodup_on f _ (vertices h)); auto. intros v Hv. apply in_app_or in Hv. destruct Hv; auto. }
  assert (Z' : zinv r).
  { apply core_zinv; [apply (graft_core _ h _ f r (empty_core _ _ _) (zinv_core _ Z) eq_refl G)|]. apply (graft_io_iff h _ f r _ _ _ Z G). tauto. }
  split; [constructor; auto; try apply G; intros v Hv; apply (gf_nt _ _ _ _ _ _ G v Hv)|].
  split; [intros v Hv; rewrite (proj2 (gf_nt _ _ _ _ _ _ G v Hv)); apply qmod2_id; apply (zx_ph _ (zi_zx _ Z)); auto|].
  do 6 (split; auto).
  assert (SC : to_number (gscalar r) = to_number (gscalar h)) by (rewrite (gf_s _ _ _ _ _ _ G); apply copy_number).
  split; auto. intros i y. unfold val at 1. rewrite (graft_sem _ _ _ _ _ (zc_wf _ (empty_core _ _ _)) W G).
  unfold internal at 1, part at 1. cbn [vertices set_inputs set_outputs with_scalar gadj empty_graph dkeys map filter sumv cprod pprod gscalar].
  rewrite copy_number. transitivity (sem h (fun v => bits (ginputs r) (goutputs r) i y (f v))); [rewrite sem_part; ring|].
  rewrite val_sem by auto. apply val_ext; auto; intros j J; rewrite nth_map' by auto.
  - rewrite <- GI. apply bits_in; auto. rewrite GI, map_length. auto.
  - rewrite <- GO. apply bits_out; auto. rewrite GO, map_length. auto.
Qed.
(** the adjoint: the conjugate transpose *)
Theorem adjoint_val : forall h, zinv h -> io_ok h -> exists r f, g_adjoint h = Ok r /\
  iso h f r /\ ginputs r = map f (goutputs h) /\ goutputs r = map f (ginputs h) /\
  zinv r /\ io_ok r /\ qubs_ok r /\ forall i y, val r y i = Cconj (val h i y).
Proof.
  intros h Z N. destruct (copy_ok true h Z) as [r [f [E [G [Q [R S]]]]]]. exists r, f. split; auto.
  assert (W := zx_wf _ (zi_zx _ Z)). destruct (zinv_incl _ Z) as [I1 I2].
  destruct (graft_fresh _ _ f r (gf_wf _ _ _ _ _ _ G) (gf_v _ _ _ _ _ _ G)) as [I _].
  assert (GI : ginputs r = map f (goutputs h)) by apply G. assert (GO : goutputs r = map f (ginputs h)) by apply G.
  assert (N' : io_ok r).
  { unfold io_ok. rewrite GI, GO. apply NoDup_app_comm'. rewrite <- map_app. apply (map_nodup_on f _ (vertices h)); auto. intros v Hv. apply in_app_or in Hv. destruct Hv; auto. }
  assert (Z' : zinv r).
  { apply core_zinv; [apply (graft_core _ h _ f r (empty_core _ _ _) (zinv_core _ Z) eq_refl G)|]. apply (graft_io_iff h _ f r _ _ _ Z G). tauto. }
  split; [constructor; auto; try apply G; intros v Hv; apply (gf_nt _ _ _ _ _ _ G v Hv)|].
  do 5 (split; auto).
  intros i y. unfold val at 1. rewrite (fun b E0 => graft_sem_conj _ _ _ _ b E0 (zc_wf _ (empty_core _ _ _)) W G) by reflexivity.
  cbn [set_inputs set_outputs with_scalar gscalar]. rewrite conj_number, <- Cconj_mult, <- sem_part. f_equal.
  rewrite val_sem by auto. apply val_ext; auto; intros j J; rewrite nth_map' by auto.
  - rewrite <- GO. apply bits_out; auto. rewrite GO, map_length. auto.
  - rewrite <- GI. apply bits_in; auto. rewrite GI, map_length. auto.
Qed.

(** ** Changes of positions, interface and scalar *)
Lemma sem_frame : forall g g' b, gadj g' = gadj g -> gty g' = gty g -> gphase g' = gphase g -> gscalar g' = gscalar g -> sem g' b = sem g b.
Proof. intros g g' b A B C D. destruct g, g'; simpl in A, B, C, D. subst. reflexivity. Qed.
Lemma core_frame : forall g g', zcore g -> gadj g' = gadj g -> gty g' = gty g -> gphase g' = gphase g -> gvindex g' = gvindex g ->
  (forall v, dget v (grindex g) <> None -> dget v (grindex g') <> None) -> zcore g'.
Proof.
  intros g g' Z A T P V R. assert (VV : vertices g' = vertices g) by (unfold vertices; rewrite A; auto).
  assert (EE : forall u v, edge_type g' u v = edge_type g u v) by (intros; unfold edge_type; rewrite A; auto).
  assert (TT : forall v, vty g' v = vty g v) by (intros; unfold vty; rewrite T; auto).
  assert (PP : forall v, phase g' v = phase g v) by (intros; unfold phase; rewrite P; auto).
  destruct Z. constructor.
  - apply (frame_only_wfg g); auto.
  - intros v. rewrite EE. auto.
  - intros v. rewrite VV, TT. auto.
  - intros v. rewrite VV, PP. auto.
  - intros v. rewrite VV, TT. intros H1 H2. destruct (zc_deg0 v H1 H2) as [u Hu]. exists u. intros w. rewrite EE. auto.
  - intros v. rewrite VV, TT, PP. auto.
  - intros v. rewrite VV. intros H. apply R. auto.
Qed.
Lemma set_rows_frame : forall vs r g, gadj (set_rows vs r g) = gadj g /\ gty (set_rows vs r g) = gty g /\ gphase (set_rows vs r g) = gphase g /\
  gscalar (set_rows vs r g) = gscalar g /\ gvindex (set_rows vs r g) = gvindex g /\ ginputs (set_rows vs r g) = ginputs g /\ goutputs (set_rows vs r g) = goutputs g /\
  gqindex (set_rows vs r g) = gqindex g /\ forall v, dget v (grindex g) <> None -> dget v (grindex (set_rows vs r g)) <> None.
Proof.
  unfold set_rows. induction vs as [|a vs IH]; intros r g; cbn [fold_left]; [repeat (split; auto)|].
  destruct (IH r (set_row a r g)) as [A [B [C [D [E [F [G [H I]]]]]]]]. rewrite A, B, C, D, E, F, G, H. repeat (split; [reflexivity|]).
  intros v Hv. apply I. unfold set_row. cbn [grindex with_rindex]. rewrite dget_dset. destruct (Nat.eqb v a); auto. discriminate.
Qed.
Lemma graft_io_both : forall g h k f r i o, zinv g -> zinv h -> graft g h k (vertices h) f r ->
  i = ginputs g ++ map f (ginputs h) -> o = goutputs g ++ map f (goutputs h) ->
  (forall v, In v i \/ In v o <-> In v (vertices r) /\ vty r v = BOUNDARY) /\ (io_ok g -> io_ok h -> NoDup (i ++ o)).
Proof.
  intros g h k f r i o Zg Z G -> ->. destruct (graft_fresh _ _ f r (gf_wf _ _ _ _ _ _ G) (gf_v _ _ _ _ _ _ G)) as [I [Fr _]]. split.
  - intros v. rewrite !in_app_iff, !in_map_iff, (gf_v _ _ _ _ _ _ G), in_app_iff, in_map_iff. split.
    + intros X. assert (Y : (In v (ginputs g) \/ In v (goutputs g)) \/ exists w, f w = v /\ (In w (ginputs h) \/ In w (goutputs h))) by (destruct X as [[X|[w []]]|[X|[w []]]]; eauto 6).
      destruct Y as [Y|[w [<- Y]]].
      * apply (zinv_io _ Zg) in Y. destruct Y as [A B]. split; auto. rewrite (proj1 (gf_ot _ _ _ _ _ _ G v A)). auto.
      * apply (zinv_io _ Z) in Y. destruct Y as [A B]. split; eauto. rewrite (proj1 (gf_nt _ _ _ _ _ _ G w A)). auto.
    + intros [[A|[w [<- A]]] B].
      * rewrite (proj1 (gf_ot _ _ _ _ _ _ G v A)) in B. destruct (proj2 (zinv_io _ Zg v) (conj A B)); auto.
      * rewrite (proj1 (gf_nt _ _ _ _ _ _ G w A)) in B. destruct (proj2 (zinv_io _ Z w) (conj A B)); eauto.
  - intros Ng Nh. destruct (zinv_incl _ Zg) as [J1 J2], (zinv_incl _ Z) as [I1 I2].
    apply (Permutation_NoDup (l := (ginputs g ++ goutputs g) ++ map f (ginputs h ++ goutputs h))).
    + rewrite map_app, <- !app_assoc. apply Permutation_app_head. rewrite !app_assoc. apply Permutation_app_tail. apply Permutation_app_comm.
    + apply RuleLemmas.nodup_app; auto.
      * apply (map_nodup_on f _ (vertices h)); auto. intros v Hv. apply in_app_or in Hv. destruct Hv; auto.
      * intros a Ha X. apply in_map_iff in X. destruct X as [w [<- Hw]]. apply (Fr w); [apply in_app_or in Hw; destruct Hw; auto|apply in_app_or in Ha; destruct Ha; auto].
Qed.

(** ** tensor *)
Theorem tensor_val : forall g h, zinv g -> io_ok g -> zinv h -> io_ok h -> qubs_ok h -> exists r, tensor g h = Ok r /\
  zinv r /\ io_ok r /\ qubs_ok r /\ length (ginputs r) = (length (ginputs g) + length (ginputs h))%nat /\
  length (goutputs r) = (length (goutputs g) + length (goutputs h))%nat /\
  forall i y, val r i y = val g i y * val h (fun j => i (length (ginputs g) + j)%nat) (fun j => y (length (goutputs g) + j)%nat).
Proof.
  intros g h Zg Ng Z N Qh. destruct (copy_val g Zg Ng) as [g0 [f0 [E0 [_ [_ [_ [GI0 [GO0 [Z0 [N0 [Q0 [S0 V0]]]]]]]]]]]].
  unfold tensor. rewrite E0. cbn [bind]. set (g1 := on_scalar (fun s => mult_with_scalar s (gscalar h)) g0).
  assert (W := zx_wf _ (zi_zx _ Z)). assert (W1 : wfg g1) by (apply on_scalar_wfg; apply (zi_zx _ Z0)).
  set (hh := (max_default 0 (map snd (gqindex g)) + 1)%Qc).
  destruct (vertices_graft h (fun p => p) (vertices h) (dict_vertex hh h)) with (L := vertices h) (g := g1) (tab := @nil (nat * nat)) as [g' [tab [E [_ [_ [HT [_ V]]]]]]].
  { intros k tab v Wk Hv. apply dict_vertex_ok; auto. apply (zi_rows _ Z); auto. } { auto. } { apply W. } { intros v; auto. } { intros v _ []. }
  match goal with |- context [foldM ?F ?L ?S] => replace (foldM F L S) with (Ok (g', tab)) by (symmetry; exact E) end. cbn [bind].
  destruct (edges_all h W) as [NE HE].
  destruct (graft_all g1 h (fun p => p) (vertices h) g' tab (edges h) W1 W (zx_noloop _ (zi_zx _ Z)) V HT NE HE) as [r0 [E1 G]].
  rewrite E1. cbn [bind]. destruct (zinv_incl _ Z) as [I1 I2]. rewrite !mapM_vget by auto. cbn [bind]. set (f := tf tab) in *.
  assert (Z1 : zinv g1).
  { destruct Z0 as [[]]. constructor; auto. constructor; auto. }
  rewrite (gf_i _ _ _ _ _ _ G), (gf_o _ _ _ _ _ _ G).
  set (i := ginputs g1 ++ map f (ginputs h)). set (o := goutputs g1 ++ map f (goutputs h)).
  destruct (graft_io_both g1 h _ f r0 i o Z1 Z G eq_refl eq_refl) as [IO ND]. specialize (ND N0 N).
  set (r1 := set_outputs o (set_inputs i r0)). set (a := min_default 1 (map (row r1) i)).
  set (c := max_default 1 (map (row (set_rows i a r1)) o)). set (r := set_rows o c (set_rows i a r1)).
  destruct (set_rows_frame i a r1) as [A1 [A2 [A3 [A4 [A5 [A6 [A7 [A8 A9]]]]]]]].
  destruct (set_rows_frame o c (set_rows i a r1)) as [B1 [B2 [B3 [B4 [B5 [B6 [B7 [B8 B9]]]]]]]]. fold r in B1, B2, B3, B4, B5, B6, B7, B8, B9.
  rewrite A1 in B1. rewrite A2 in B2. rewrite A3 in B3. rewrite A4 in B4. rewrite A5 in B5. rewrite A6 in B6. rewrite A7 in B7. rewrite A8 in B8. change (gadj r1) with (gadj r0) in B1. change (gty r1) with (gty r0) in B2. change (gphase r1) with (gphase r0) in B3. change (gscalar r1) with (gscalar r0) in B4.
  change (gvindex r1) with (gvindex r0) in B5. change (ginputs r1) with i in B6. change (goutputs r1) with o in B7. change (gqindex r1) with (gqindex r0) in B8.
  assert (VV : vertices r = vertices r0) by (unfold vertices; rewrite B1; auto).
  exists r. split; [reflexivity|]. assert (NR : io_ok r) by (unfold io_ok; rewrite B6, B7; auto).
  assert (ZR : zinv r).
  { apply core_zinv.
    - apply (core_frame r0); auto. apply (graft_core g1 h _ f r0 (zinv_core _ Z1) (zinv_core _ Z) eq_refl G).
    - intros v. rewrite B6, B7, VV. unfold vty. rewrite B2. apply IO. }
  assert (LI : length (ginputs g1) = length (ginputs g)) by (cbn; rewrite GI0, map_length; auto).
  assert (LO : length (goutputs g1) = length (goutputs g)) by (cbn; rewrite GO0, map_length; auto).
  split; auto. split; auto. split; [|split; [rewrite B6; unfold i; rewrite app_length, map_length, LI; auto|split; [rewrite B7; unfold o; rewrite app_length, map_length, LO; auto|]]].
  - intros v. rewrite VV, B8. apply (gf_q _ _ _ _ _ _ G). apply Q0.
  - intros bi by_. unfold val at 1. rewrite (sem_frame r0) by auto. rewrite (graft_sem _ _ _ _ _ W1 W G). rewrite <- V0.
    transitivity (sem g0 (bits (ginputs r) (goutputs r) bi by_) * sem h (fun v => bits (ginputs r) (goutputs r) bi by_ (f v))).
    { rewrite !sem_part. change (gscalar g1) with (mult_with_scalar (gscalar g0) (gscalar h)). rewrite mult_with_scalar_number.
      change (internal g1) with (internal g0). change (vertices g1) with (vertices g0). change (part g1) with (part g0). ring. }
    rewrite (val_sem g0), (val_sem h) by auto. f_equal.
    + apply val_ext; auto; intros j J.
      * replace (nth j (ginputs g0) 0%nat) with (nth j (ginputs r) 0%nat); [apply bits_in; auto|]; rewrite B6; unfold i; [rewrite app_length; change (ginputs g1) with (ginputs g0); lia|apply app_nth1; auto].
      * replace (nth j (goutputs g0) 0%nat) with (nth j (goutputs r) 0%nat); [apply bits_out; auto|]; rewrite B7; unfold o; [rewrite app_length; change (goutputs g1) with (goutputs g0); lia|apply app_nth1; auto].
    + apply val_ext; auto; intros j J; rewrite nth_map' by auto.
      * replace (nth j (map f (ginputs h)) 0%nat) with (nth (length (ginputs g) + j) (ginputs r) 0%nat); [apply bits_in; auto|]; rewrite B6; unfold i; [rewrite app_length, map_length; lia|rewrite <- LI; apply app_nth2_plus].
      * replace (nth j (map f (goutputs h)) 0%nat) with (nth (length (goutputs g) + j) (goutputs r) 0%nat); [apply bits_out; auto|]; rewrite B7; unfold o; [rewrite app_length, map_length; lia|rewrite <- LO; apply app_nth2_plus].
Qed.

(** ** merge and subgraph_from_vertices *)
Lemma dict_values : forall (d : dict nat), NoDup (dkeys d) -> map snd d = map (tf d) (dkeys d).
Proof.
  intros d N. unfold dkeys. rewrite map_map. apply map_ext_in. intros [k v] H. cbn [fst snd]. unfold tf. rewrite (in_dget k v d); auto.
Qed.
Theorem merge_ok : forall g h, wfg g -> wfg h -> noloop h -> rows_ok h -> qubs_ok h -> exists r f, merge g h = Ok (r, map f (vertices h)) /\
  graft g h (fun p => p) (vertices h) f r /\
  forall b, to_number (gscalar h) * sem r b = sem g b * sem h (fun v => b (f v)).
Proof.
  intros g h W Wh NL R Q. unfold merge.
  destruct (vertices_graft h (fun p => p) (vertices h) (dict_vertex 0 h)) with (L := vertices h) (g := g) (tab := @nil (nat * nat)) as [g' [tab [E [K [_ [HT [_ V]]]]]]].
  { intros k tab v Wk Hv. apply dict_vertex_ok; auto. } { auto. } { apply Wh. } { intros v; auto. } { intros v _ []. }
  match goal with |- context [foldM ?F ?L ?S] => replace (foldM F L S) with (Ok (g', tab)) by (symmetry; exact E) end. cbn [bind].
  destruct (edges_all h Wh) as [NE HE].
  destruct (graft_all g h (fun p => p) (vertices h) g' tab (edges h) W Wh NL V HT NE HE) as [r [E1 G]].
  rewrite E1. cbn [bind]. exists r, (tf tab). change (dkeys [] ++ vertices h) with (vertices h) in K.
  split; [rewrite dict_values by (rewrite K; apply Wh); rewrite K; auto|]. split; auto.
  intros b. rewrite (graft_sem _ _ _ _ _ W Wh G), !sem_part. ring.
Qed.
Theorem subgraph_ok : forall h verts, wfg h -> noloop h -> rows_ok h -> qubs_ok h -> NoDup verts -> incl verts (vertices h) ->
  exists r f, subgraph_from_vertices h verts = Ok r /\ graft empty_graph h (fun p => p) verts f r.
Proof.
  intros h verts Wh NL R Q N I. unfold subgraph_from_vertices.
  destruct (vertices_graft h (fun p => p) verts (dict_vertex 0 h)) with (L := verts) (g := empty_graph) (tab := @nil (nat * nat)) as [g' [tab [E [K [_ [HT [_ V]]]]]]]; auto.
  { intros k tab v Wk Hv. apply dict_vertex_ok; auto. } { apply empty_wfg. } { intros v; auto. }
  match goal with |- context [foldM ?F ?L ?S] => replace (foldM F L S) with (Ok (g', tab)) by (symmetry; exact E) end. cbn [bind].
  destruct (edges_all h Wh) as [NE HE].
  destruct (graft_all empty_graph h (fun p => p) verts g' tab (filter (fun e : nat * nat => inb (fst e) verts && inb (snd e) verts) (edges h)) empty_wfg Wh NL V HT) as [r [E1 G]].
  - apply NoDup_filter. auto.
  - intros u v. rewrite filter_In, HE. cbn [fst snd]. unfold inb. rewrite andb_true_iff, !existsb_exists. split.
    + intros [[A [_ [_ B]]] [[a [C1' C2']] [c [D1 D2]]]]. apply Nat.eqb_eq in C2'. apply Nat.eqb_eq in D2. subst. auto.
    + intros [A [B [D F]]]. split; auto. split; [exists u|exists v]; rewrite Nat.eqb_refl; auto.
  - exists r, (tf tab). auto.
Qed.
