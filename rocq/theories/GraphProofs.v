(** Invariants of the graph store and the pointwise effect of each primitive
    graph operation on the integrand. *)
From Coq Require Import Reals ZArith QArith Qcanon List Bool Arith Lia Permutation Ring.
From Verif Require Import CNum Base ScalarModel ScalarProofs GraphModel GraphSem SumLemmas.
Import ListNotations.
Open Scope C_scope.

(** ** Adjacency tables *)
Definition adjt (a : dict (dict etype)) (u v : nat) : option etype :=
  match dget u a with Some d => dget v d | None => None end.

Lemma edge_type_adjt : forall g u v, edge_type g u v = adjt (gadj g) u v.
Proof. reflexivity. Qed.

Definition inner_nd (a : dict (dict etype)) : Prop :=
  forall v d, dget v a = Some d -> NoDup (dkeys d).

Lemma adj_set_spec : forall s t et a a', adj_set s t et a = Ok a' ->
  In s (dkeys a) /\ dkeys a' = dkeys a /\ (inner_nd a -> inner_nd a') /\
  forall u v, adjt a' u v = if Nat.eqb u s && Nat.eqb v t then Some et else adjt a u v.
Proof.
  intros s t et a a' H. unfold adj_set in H. destruct (dget s a) as [d|] eqn:E; [|discriminate].
  inversion H; subst; clear H.
  assert (In s (dkeys a)) by (eapply dget_some_key; eauto).
  split; auto. split; [apply dkeys_dset_in; auto|]. split.
  - intros Hi v d' Hd'. rewrite dget_dset in Hd'. destruct (Nat.eqb_spec v s); subst.
    + inversion Hd'; subst. apply nodup_dset. eapply Hi; eauto.
    + eapply Hi; eauto.
  - intros u v. unfold adjt. rewrite dget_dset. destruct (Nat.eqb_spec u s); subst; simpl; auto.
    rewrite dget_dset, E. destruct (Nat.eqb v t); reflexivity.
Qed.
Lemma adj_set_ok : forall s t et a, In s (dkeys a) -> exists a', adj_set s t et a = Ok a'.
Proof.
  intros. apply dget_keys in H. destruct H as [d H]. unfold adj_set. rewrite H. eauto.
Qed.

Lemma adj_del_spec : forall s t a a', inner_nd a -> adj_del s t a = Ok a' ->
  In s (dkeys a) /\ adjt a s t <> None /\ dkeys a' = dkeys a /\ inner_nd a' /\
  forall u v, adjt a' u v = if Nat.eqb u s && Nat.eqb v t then None else adjt a u v.
Proof.
  intros s t a a' Hi H. unfold adj_del in H. destruct (dget s a) as [d|] eqn:E; [|discriminate].
  destruct (dmem t d) eqn:Em; [|discriminate].
  inversion H; subst; clear H.
  assert (In s (dkeys a)) by (eapply dget_some_key; eauto).
  split; auto. split.
  { unfold adjt. rewrite E. apply dmem_keys in Em. intro Hn. apply dget_none in Hn. auto. }
  split; [apply dkeys_dset_in; auto|]. split.
  - intros v d' Hd'. rewrite dget_dset in Hd'. destruct (Nat.eqb_spec v s); subst.
    + inversion Hd'; subst. apply nodup_ddel. eapply Hi; eauto.
    + eapply Hi; eauto.
  - intros u v. unfold adjt. rewrite dget_dset. destruct (Nat.eqb_spec u s); subst; simpl; auto.
    rewrite dget_ddel, E by (eapply Hi; eauto). destruct (Nat.eqb v t); reflexivity.
Qed.
Lemma adj_del_ok : forall s t a e, adjt a s t = Some e -> exists a', adj_del s t a = Ok a'.
Proof.
  intros. unfold adjt in H. unfold adj_del. destruct (dget s a) as [d|]; [|discriminate].
  unfold dmem. rewrite H. eauto.
Qed.

(** ** Well-formed stores *)
Record wfg (g : graph) : Prop := mkwfg {
  wf_nd : NoDup (vertices g);
  wf_inner : inner_nd (gadj g);
  wf_sym : forall u v, edge_type g u v = edge_type g v u;
  wf_ty : forall v, In v (dkeys (gty g)) <-> In v (vertices g);
  wf_ndty : NoDup (dkeys (gty g));
  wf_ph : forall v, In v (dkeys (gphase g)) <-> In v (vertices g);
  wf_ndph : NoDup (dkeys (gphase g));
  wf_fresh : forall v, In v (vertices g) -> (v < gvindex g)%nat
}.

Definition noloop (g : graph) : Prop := forall v, edge_type g v v = None.

Lemma edge_in_l : forall g u v e, edge_type g u v = Some e -> In u (vertices g).
Proof.
  intros. unfold edge_type in H. destruct (dget u (gadj g)) eqn:E; [|discriminate].
  eapply dget_some_key; eauto.
Qed.
Lemma edge_in_r : forall g u v e, wfg g -> edge_type g u v = Some e -> In v (vertices g).
Proof. intros. rewrite wf_sym in H0 by auto. eapply edge_in_l; eauto. Qed.

Lemma neighbors_spec : forall g u v, In v (neighbors g u) <-> edge_type g u v <> None.
Proof.
  intros. unfold neighbors, edge_type. destruct (dget u (gadj g)).
  - rewrite <- dget_keys. destruct (dget v d); split; intros; eauto; try congruence.
    destruct H; discriminate.
  - simpl. split; [tauto|congruence].
Qed.
Lemma neighbors_some : forall g u v, In v (neighbors g u) <-> exists e, edge_type g u v = Some e.
Proof.
  intros. rewrite neighbors_spec. destruct (edge_type g u v); split; intros; eauto; try congruence.
  destruct H; discriminate.
Qed.
Lemma neighbors_nd : forall g u, wfg g -> NoDup (neighbors g u).
Proof.
  intros. unfold neighbors. destruct (dget u (gadj g)) eqn:E; [eapply wf_inner; eauto|constructor].
Qed.
Lemma neighbors_r_ok : forall g u, In u (vertices g) -> neighbors_r g u = Ok (neighbors g u).
Proof.
  intros. apply dget_keys in H. destruct H as [d H]. unfold neighbors_r, neighbors. rewrite H. reflexivity.
Qed.
Lemma neighbors_r_inv : forall g u l, neighbors_r g u = Ok l -> In u (vertices g) /\ l = neighbors g u.
Proof.
  intros. unfold neighbors_r, neighbors in *. destruct (dget u (gadj g)) eqn:E; [|discriminate].
  inversion H. split; auto. eapply dget_some_key; eauto.
Qed.
Lemma neighbors_sym : forall g u v, wfg g -> In v (neighbors g u) <-> In u (neighbors g v).
Proof. intros. rewrite !neighbors_spec, wf_sym by auto. reflexivity. Qed.
Lemma neighbors_in : forall g u v, wfg g -> In v (neighbors g u) -> In v (vertices g).
Proof. intros. apply neighbors_some in H0. destruct H0. eapply edge_in_r; eauto. Qed.
Lemma vtype_r_ok : forall g v, wfg g -> In v (vertices g) -> vtype_r g v = Ok (vty g v).
Proof.
  intros. apply (wf_ty g H) in H0. apply dget_keys in H0. destruct H0 as [t Ht].
  unfold vtype_r, vty. rewrite Ht. reflexivity.
Qed.
Lemma vtype_r_inv : forall g v t, vtype_r g v = Ok t -> vty g v = t /\ In v (dkeys (gty g)).
Proof.
  intros. unfold vtype_r, vty in *. destruct (dget v (gty g)) eqn:E; [|discriminate].
  inversion H. split; auto. eapply dget_some_key; eauto.
Qed.

(** ** Frames: what an operation leaves alone *)
(** same vertices (as a list), types, inputs, outputs, next index *)
Definition same_frame (g g' : graph) : Prop :=
  vertices g' = vertices g /\ gty g' = gty g /\ ginputs g' = ginputs g /\ goutputs g' = goutputs g
  /\ gvindex g' = gvindex g /\ gqindex g' = gqindex g /\ grindex g' = grindex g.
Lemma same_frame_refl : forall g, same_frame g g.
Proof. unfold same_frame; tauto. Qed.
Lemma same_frame_trans : forall a b c, same_frame a b -> same_frame b c -> same_frame a c.
Proof. unfold same_frame. intros a b c H1 H2. intuition congruence. Qed.
Lemma same_frame_vty : forall g g' v, same_frame g g' -> vty g' v = vty g v.
Proof. intros. unfold vty. destruct H as [_ [-> _]]. reflexivity. Qed.
Lemma same_frame_isX : forall g g' v, same_frame g g' -> isX g' v = isX g v.
Proof. intros. unfold isX. rewrite (same_frame_vty g g'); auto. Qed.
Lemma same_frame_isB : forall g g' v, same_frame g g' -> isB g' v = isB g v.
Proof. intros. unfold isB. rewrite (same_frame_vty g g'); auto. Qed.
Lemma same_frame_internal : forall g g', same_frame g g' -> internal g' = internal g.
Proof.
  intros. unfold internal. destruct H as [E [E2 _]]. rewrite E.
  apply filter_ext. intros. unfold isB, vty. rewrite E2. reflexivity.
Qed.

(** ** Edge type update *)
Definition pair_hit (s t u v : nat) : bool :=
  (Nat.eqb u s && Nat.eqb v t) || (Nat.eqb u t && Nat.eqb v s).

Lemma pair_hit_sym : forall s t u v, pair_hit s t u v = pair_hit s t v u.
Proof.
  intros. unfold pair_hit.
  destruct (Nat.eqb_spec u s), (Nat.eqb_spec v t), (Nat.eqb_spec u t), (Nat.eqb_spec v s); simpl; auto.
Qed.
Lemma pair_hit_st : forall s t, pair_hit s t s t = true.
Proof. intros. unfold pair_hit. rewrite !Nat.eqb_refl. reflexivity. Qed.
Lemma pair_hit_false : forall s t u v, (u,v) <> (s,t) -> (u,v) <> (t,s) -> pair_hit s t u v = false.
Proof.
  intros. unfold pair_hit.
  destruct (Nat.eqb_spec u s), (Nat.eqb_spec v t), (Nat.eqb_spec u t), (Nat.eqb_spec v s); simpl; auto; subst; congruence.
Qed.

Lemma set_edge_type_spec : forall s t et g g', wfg g -> set_edge_type s t et g = Ok g' ->
  wfg g' /\ same_frame g g' /\ gphase g' = gphase g /\ gscalar g' = gscalar g /\
  In s (vertices g) /\ In t (vertices g) /\
  forall u v, edge_type g' u v = if pair_hit s t u v then Some et else edge_type g u v.
Proof.
  intros s t et g g' W H. unfold set_edge_type in H. inv_bind H. inv_bind H. inversion H; subst; clear H.
  destruct (adj_set_spec _ _ _ _ _ E) as [I1 [K1 [N1 A1]]].
  destruct (adj_set_spec _ _ _ _ _ E0) as [I2 [K2 [N2 A2]]].
  assert (vertices (with_adj a0 g) = vertices g) as HV by (unfold vertices; simpl; congruence).
  assert (forall u v, edge_type (with_adj a0 g) u v = if pair_hit s t u v then Some et else edge_type g u v) as HE.
  { intros. rewrite !edge_type_adjt. simpl. rewrite A2, A1. unfold pair_hit.
    destruct (Nat.eqb_spec u t), (Nat.eqb_spec v s), (Nat.eqb_spec u s), (Nat.eqb_spec v t); simpl; auto. }
  split; [|split; [|split; [|split; [|split; [|split]]]]]; auto.
  - constructor; try (apply W).
    + rewrite HV; apply W.
    + simpl. apply N2, N1, W.
    + intros. rewrite !HE, pair_hit_sym, (wf_sym g W u v). reflexivity.
    + intros. rewrite HV. apply (wf_ty g W).
    + intros. rewrite HV. apply (wf_ph g W).
    + intros v Hv. rewrite HV in Hv. apply (wf_fresh g W v Hv).
  - unfold same_frame. simpl. rewrite HV. tauto.
  - unfold vertices. congruence.
Qed.
Lemma set_edge_type_ok : forall s t et g, In s (vertices g) -> In t (vertices g) ->
  exists g', set_edge_type s t et g = Ok g'.
Proof.
  intros. unfold set_edge_type. destruct (adj_set_ok s t et (gadj g) H) as [a1 E1].
  rewrite E1. simpl. destruct (adj_set_spec _ _ _ _ _ E1) as [_ [K _]].
  destruct (adj_set_ok t s et a1) as [a2 E2]. { rewrite K. auto. }
  rewrite E2. simpl. eauto.
Qed.

Lemma remove_edge_spec : forall s t g g', wfg g -> s <> t -> remove_edge s t g = Ok g' ->
  wfg g' /\ same_frame g g' /\ gphase g' = gphase g /\ gscalar g' = gscalar g /\
  In s (vertices g) /\ In t (vertices g) /\ edge_type g s t <> None /\
  forall u v, edge_type g' u v = if pair_hit s t u v then None else edge_type g u v.
Proof.
  intros s t g g' W Hne H. unfold remove_edge in H. inv_bind H. inv_bind H. inversion H; subst; clear H.
  destruct (adj_del_spec _ _ _ _ (wf_inner g W) E) as [I1 [X1 [K1 [N1 A1]]]].
  destruct (adj_del_spec _ _ _ _ N1 E0) as [I2 [X2 [K2 [N2 A2]]]].
  set (g' := with_adj a0 (with_nedges (gnedges g - 1)%Z g)).
  assert (vertices g' = vertices g) as HV by (unfold vertices; simpl; congruence).
  assert (forall u v, edge_type g' u v = if pair_hit s t u v then None else edge_type g u v) as HE.
  { intros. rewrite !edge_type_adjt. simpl. rewrite A2, A1. unfold pair_hit.
    destruct (Nat.eqb_spec u t), (Nat.eqb_spec v s), (Nat.eqb_spec u s), (Nat.eqb_spec v t); simpl; auto. }
  split; [|split; [|split; [|split; [|split; [|split; [|split]]]]]]; auto.
  - constructor; try (apply W).
    + rewrite HV; apply W.
    + simpl. apply N2.
    + intros. rewrite !HE, pair_hit_sym, (wf_sym g W u v). reflexivity.
    + intros. rewrite HV. apply (wf_ty g W).
    + intros. rewrite HV. apply (wf_ph g W).
    + intros v Hv. rewrite HV in Hv. apply (wf_fresh g W v Hv).
  - unfold same_frame. rewrite HV. simpl. tauto.
  - unfold vertices. congruence.
Qed.
Lemma remove_edge_ok : forall s t g e, wfg g -> s <> t -> edge_type g s t = Some e ->
  exists g', remove_edge s t g = Ok g'.
Proof.
  intros. unfold remove_edge. destruct (adj_del_ok s t (gadj g) e H1) as [a1 E1].
  rewrite E1. simpl. destruct (adj_del_spec _ _ _ _ (wf_inner g H) E1) as [_ [_ [K [_ A]]]].
  destruct (adj_del_ok t s a1 e) as [a2 E2].
  { rewrite A. apply not_eq_sym, Nat.eqb_neq in H0. rewrite H0. simpl.
    rewrite wf_sym in H1 by auto. exact H1. }
  rewrite E2. simpl. eauto.
Qed.

(** ** Phase updates *)
Lemma set_phase_frame : forall v p g, same_frame g (set_phase v p g).
Proof. intros. unfold same_frame; simpl. tauto. Qed.
Lemma add_to_phase_frame : forall v p g, same_frame g (add_to_phase v p g).
Proof. intros. unfold same_frame; simpl. tauto. Qed.

Lemma wfg_phase : forall g v p, wfg g -> In v (vertices g) -> wfg (with_phase (dset v p (gphase g)) g).
Proof.
  intros g v p W Hv. constructor; try apply W.
  - intros. simpl. rewrite in_dkeys_dset, (wf_ph g W). split; [intros [->|]; auto|auto].
  - simpl. apply nodup_dset, W.
Qed.
Lemma set_phase_wfg : forall g v p, wfg g -> In v (vertices g) -> wfg (set_phase v p g).
Proof. intros. apply wfg_phase; auto. Qed.
Lemma add_to_phase_wfg : forall g v p, wfg g -> In v (vertices g) -> wfg (add_to_phase v p g).
Proof. intros. apply wfg_phase; auto. Qed.
Lemma phase_set_phase : forall g v p u, phase (set_phase v p g) u = if Nat.eqb u v then qmod2 p else phase g u.
Proof. intros. unfold phase; simpl. rewrite dget_dset. destruct (Nat.eqb u v); reflexivity. Qed.
Lemma phase_add_to_phase : forall g v p u,
  phase (add_to_phase v p g) u = if Nat.eqb u v then qmod2 (phase g v + p)%Qc else phase g u.
Proof. intros. unfold phase; simpl. rewrite dget_dset. destruct (Nat.eqb u v); reflexivity. Qed.
Lemma edge_type_add_to_phase : forall g v p a b, edge_type (add_to_phase v p g) a b = edge_type g a b.
Proof. reflexivity. Qed.

Lemma on_scalar_frame : forall f g, same_frame g (on_scalar f g).
Proof. intros. unfold same_frame; simpl. tauto. Qed.
Lemma on_scalar_wfg : forall f g, wfg g -> wfg (on_scalar f g).
Proof. intros f g W. constructor; apply W. Qed.

Lemma ephase_mult : forall p q b, ephase (p + q)%Qc b = ephase p b * ephase q b.
Proof. intros. destruct b; simpl; [apply cexp_add|ring]. Qed.
Lemma ephase_mod2 : forall p b, ephase (qmod2 p) b = ephase p b.
Proof. intros. destruct b; simpl; [apply cexp_qmod2|reflexivity]. Qed.
Lemma ephase_1 : forall b, ephase 1%Qc b = sgn b.
Proof. intros []; simpl; [apply cexp_1|reflexivity]. Qed.
Lemma ephase_0 : forall b, ephase 0%Qc b = C1.
Proof. intros []; simpl; [apply cexp_0|reflexivity]. Qed.
Lemma ephase_neq0 : forall p b, ephase p b <> C0.
Proof. intros. destruct b; simpl; [apply cexp_neq0|apply C1_neq_C0]. Qed.

Lemma ew_sym : forall g u v a b, wfg g -> ew g u v a b = ew g v u b a.
Proof.
  intros. unfold ew. rewrite (wf_sym g H u v), xorb_comm.
  destruct (edge_type g v u) as [e|]; simpl; auto.
  destruct (tog _ e); simpl.
  - unfold dlt. destruct a, b; reflexivity.
  - rewrite andb_comm. reflexivity.
Qed.

(** ** Pointwise effects *)
Lemma integL_scalar : forall L f g x c, to_number (f (gscalar g)) = c * to_number (gscalar g) ->
  integL L (on_scalar f g) x = integL L g x * c.
Proof.
  intros. unfold integL. simpl gscalar. rewrite H.
  replace (cprod (fun v => pw (on_scalar f g) v (x v)) L) with (cprod (fun v => pw g v (x v)) L) by reflexivity.
  replace (pprod (fun u v => ew (on_scalar f g) u v (x u) (x v)) L) with (pprod (fun u v => ew g u v (x u) (x v)) L) by reflexivity.
  ring.
Qed.
Lemma integL_power : forall L n g x, integL L (on_scalar (s_add_power n) g) x = integL L g x * sq2p n.
Proof. intros. apply integL_scalar. apply add_power_number. Qed.
Lemma integL_sphase : forall L p g x, integL L (on_scalar (s_add_phase p) g) x = integL L g x * cexp p.
Proof. intros. apply integL_scalar. apply add_phase_number. Qed.

Lemma integL_add_to_phase : forall L v p g x, NoDup L -> In v L -> isB g v = false ->
  integL L (add_to_phase v p g) x = integL L g x * ephase p (x v).
Proof.
  intros. unfold integL. simpl gscalar.
  replace (pprod (fun u v0 => ew (add_to_phase v p g) u v0 (x u) (x v0)) L) with (pprod (fun u v => ew g u v (x u) (x v)) L) by reflexivity.
  destruct (cprod_change1 (fun u => pw g u (x u)) (fun u => pw (add_to_phase v p g) u (x u)) L v) as [R [E1 E2]]; auto.
  - intros. unfold pw. rewrite phase_add_to_phase. apply Nat.eqb_neq in H3. rewrite H3. reflexivity.
  - rewrite E1, E2. unfold pw. replace (isB (add_to_phase v p g) v) with (isB g v) by reflexivity. rewrite H1.
    rewrite phase_add_to_phase, Nat.eqb_refl, ephase_mod2, ephase_mult. ring.
Qed.
Lemma integL_add_to_phase_out : forall L v p g x, ~ In v L ->
  integL L (add_to_phase v p g) x = integL L g x.
Proof.
  intros. unfold integL. simpl gscalar. f_equal. f_equal.
  apply cprod_ext. intros. unfold pw. rewrite phase_add_to_phase.
  destruct (Nat.eqb_spec a v); [subst; contradiction|]. reflexivity.
Qed.
Lemma integL_set_phase_out : forall L v p g x, ~ In v L ->
  integL L (set_phase v p g) x = integL L g x.
Proof.
  intros. unfold integL. simpl gscalar. f_equal. f_equal.
  apply cprod_ext. intros. unfold pw. rewrite phase_set_phase.
  destruct (Nat.eqb_spec a v); [subst; contradiction|]. reflexivity.
Qed.

(** weight of a new edge of type et between s and t *)
Definition nw (g : graph) (et : etype) (s t : nat) (x : assignment) : C :=
  wt (Some (tog (xorb (isX g s) (isX g t)) et)) (x s) (x t).

Lemma nw_frame : forall g g' et s t x, same_frame g g' -> nw g' et s t x = nw g et s t x.
Proof. intros. unfold nw. rewrite !(same_frame_isX g g'); auto. Qed.

(** parallel wires *)
Lemma wt_ss : forall a b, wt (Some SIMPLE) a b * wt (Some SIMPLE) a b = wt (Some SIMPLE) a b.
Proof. intros [] []; unfold wt, dlt; simpl; ring. Qed.
Lemma wt_sh : forall a b, wt (Some SIMPLE) a b * wt (Some HADAMARD) a b = sq2p (-1) * sgn a * wt (Some SIMPLE) a b.
Proof. intros [] []; unfold wt, dlt; simpl; ring. Qed.
Lemma wt_hh : forall a b, wt (Some HADAMARD) a b * wt (Some HADAMARD) a b = sq2p (-2).
Proof. intros. change (-2)%Z with (-1 + -1)%Z. rewrite sq2p_add. intros; destruct a, b; simpl; ring. Qed.

Lemma integL_edge_change : forall L s t g g' x, NoDup L -> In s L -> In t L -> s <> t -> wfg g -> wfg g' ->
  same_frame g g' ->
  (forall u v, (u,v) <> (s,t) -> (u,v) <> (t,s) -> edge_type g' u v = edge_type g u v) ->
  (forall u, u <> s -> phase g' u = phase g u) ->
  exists R, integL L g x = to_number (gscalar g) * R * pw g s (x s) * ew g s t (x s) (x t)
         /\ integL L g' x = to_number (gscalar g') * R * pw g' s (x s) * ew g' s t (x s) (x t).
Proof.
  intros L s t g g' x ND Hs Ht Hne W W' F HE HP.
  destruct (cprod_change1 (fun u => pw g u (x u)) (fun u => pw g' u (x u)) L s) as [R1 [A1 A2]]; auto.
  { intros. unfold pw. rewrite (same_frame_isB g g'), HP; auto. }
  destruct (pprod_change2 (fun u v => ew g u v (x u) (x v)) (fun u v => ew g' u v (x u) (x v)) L s t) as [R2 [B1 B2]]; auto.
  { intros. apply ew_sym; auto. }
  { intros. apply ew_sym; auto. }
  { intros. unfold ew. rewrite HE by auto. rewrite !(same_frame_isX g g') by auto. reflexivity. }
  exists (R1 * R2). unfold integL. rewrite A1, A2, B1, B2. split; ring.
Qed.

Lemma edge_none_dget : forall g s t ds, dget s (gadj g) = Some ds -> edge_type g s t = dget t ds.
Proof. intros. unfold edge_type. rewrite H. reflexivity. Qed.

Lemma nedges_irrel : forall n g, edge_type (with_nedges n g) = edge_type g /\ vertices (with_nedges n g) = vertices g.
Proof. intros; split; reflexivity. Qed.
Lemma wfg_nedges : forall n g, wfg g -> wfg (with_nedges n g).
Proof. intros n g W. constructor; apply W. Qed.

Lemma etype_eqb_eq : forall a b, etype_eqb a b = true <-> a = b.
Proof. intros [] []; simpl; split; congruence. Qed.
Lemma vtype_eqb_eq : forall a b, vtype_eqb a b = true <-> a = b.
Proof. intros [] []; simpl; split; congruence. Qed.
Lemma vtype_eqb_refl : forall a, vtype_eqb a a = true.
Proof. intros []; reflexivity. Qed.

(** The central fact about add_edge. *)
Lemma add_edge_spec : forall s t et g g', wfg g -> s <> t -> add_edge s t et g = Ok g' ->
  wfg g' /\ same_frame g g' /\ In s (vertices g) /\ In t (vertices g) /\
  (forall u v, (u,v) <> (s,t) -> (u,v) <> (t,s) -> edge_type g' u v = edge_type g u v) /\
  (forall u, u <> s -> phase g' u = phase g u) /\
  (forall L x, NoDup L -> In s L -> In t L -> integL L g' x = integL L g x * nw g et s t x).
Proof.
  intros s t et g g' W Hne H. unfold add_edge in H.
  destruct (dget s (gadj g)) as [ds|] eqn:Es; [|discriminate].
  pose proof (edge_none_dget g s t ds Es) as Ee.
  destruct (dget t ds) as [et1|] eqn:Et.
  - (* already connected *)
    assert (In s (vertices g)) as Is by (eapply edge_in_l; eauto).
    assert (In t (vertices g)) as It by (eapply edge_in_r; eauto).
    rewrite (vtype_r_ok g s W Is), (vtype_r_ok g t W It) in H. simpl in H.
    destruct (vertex_is_zx_like (vty g s) && vertex_is_zx_like (vty g t)) eqn:Ezx; [|discriminate].
    apply andb_true_iff in Ezx. destruct Ezx as [Z1 Z2].
    assert (isB g s = false) as Bs by (unfold isB; destruct (vty g s); try reflexivity; discriminate Z1).
    set (c := xorb (isX g s) (isX g t)) in *.
    assert ((if Bool.eqb (vertex_is_z_like (vty g s)) (vertex_is_z_like (vty g t)) then (SIMPLE, HADAMARD) else (HADAMARD, SIMPLE))
             = (tog c SIMPLE, tog c HADAMARD)) as Efh.
    { subst c. unfold isX. destruct (vty g s), (vty g t); try discriminate Z1; try discriminate Z2; reflexivity. }
    rewrite Efh in H. cbv beta iota in H.
    destruct (etype_eqb et (tog c SIMPLE) && etype_eqb et1 (tog c SIMPLE)) eqn:C1'.
    + apply andb_true_iff in C1'. destruct C1' as [X1 X2]. apply etype_eqb_eq in X1. apply etype_eqb_eq in X2.
      inversion H; subst g'. split; [auto|]. split; [apply same_frame_refl|]. do 2 (split; [auto|]). split; [auto|]. split; [auto|].
      intros L x ND Ls Lt.
      destruct (integL_edge_change L s t g g x) as [R [E1 E2]]; auto using same_frame_refl.
      rewrite E1. unfold ew, nw. rewrite Ee. fold c. subst et et1. simpl option_map.
      replace (tog c (tog c SIMPLE)) with SIMPLE by (destruct c; reflexivity).
      transitivity (to_number (gscalar g) * R * pw g s (x s) * (wt (Some SIMPLE) (x s) (x t) * wt (Some SIMPLE) (x s) (x t))); [rewrite wt_ss; ring|ring].
    + destruct (_ || _) eqn:C2 in H.
      * (* mixed: fuse + hopf *)
        assert ((et = tog c SIMPLE /\ et1 = tog c HADAMARD) \/ (et = tog c HADAMARD /\ et1 = tog c SIMPLE)) as Hmix.
        { apply orb_true_iff in C2. destruct C2 as [C2|C2]; apply andb_true_iff in C2; destruct C2 as [Y1 Y2];
            apply etype_eqb_eq in Y1; apply etype_eqb_eq in Y2; auto. }
        clear C1' C2. inv_bind H. inversion H; subst g'; clear H.
        destruct (set_edge_type_spec _ _ _ _ _ W E) as [W1 [F1 [P1 [S1 [_ [_ T1]]]]]].
        assert (isB a s = false) as Ba by (rewrite (same_frame_isB g a); auto).
        split. { apply on_scalar_wfg, add_to_phase_wfg; auto. destruct F1 as [-> _]; auto. }
        split. { eapply same_frame_trans; [exact F1|]. eapply same_frame_trans; [apply (add_to_phase_frame s 1%Qc)|apply on_scalar_frame]. }
        split; [auto|]. split; [auto|]. split.
        { intros u v N1 N2. change (edge_type a u v = edge_type g u v). rewrite T1, pair_hit_false; auto. }
        split.
        { intros u Hu. change (phase (add_to_phase s 1%Qc a) u = phase g u). rewrite phase_add_to_phase.
          apply Nat.eqb_neq in Hu. rewrite Hu. unfold phase. rewrite P1. reflexivity. }
        intros L x ND Ls Lt. rewrite integL_power, integL_add_to_phase by auto.
        destruct (integL_edge_change L s t g a x) as [R [E1 E2]]; auto.
        { intros. rewrite T1, pair_hit_false; auto. }
        { intros. unfold phase. rewrite P1. reflexivity. }
        rewrite E1, E2, S1. unfold pw, ew, nw. rewrite (same_frame_isB g a), !(same_frame_isX g a) by auto.
        fold c. rewrite T1, pair_hit_st, Ee. unfold phase. rewrite P1. simpl option_map.
        rewrite ephase_1.
        assert (forall e, tog c (tog c e) = e) as Htt by (intros []; destruct c; reflexivity).
        set (q := if isB g s then C1 else _).
        transitivity (to_number (gscalar g) * R * q * (sq2p (-1) * sgn (x s) * wt (Some SIMPLE) (x s) (x t))).
        { rewrite Htt. ring. }
        rewrite <- wt_sh. destruct Hmix as [[-> ->]|[-> ->]]; rewrite !Htt; ring.
      * destruct (etype_eqb et (tog c HADAMARD) && etype_eqb et1 (tog c HADAMARD)) eqn:C3; [|discriminate].
        apply andb_true_iff in C3. destruct C3 as [Y1 Y2]. apply etype_eqb_eq in Y1. apply etype_eqb_eq in Y2.
        clear C1' C2. inv_bind H. inversion H; subst g'; clear H.
        destruct (remove_edge_spec _ _ _ _ W Hne E) as [W1 [F1 [P1 [S1 [_ [_ [_ T1]]]]]]].
        split. { apply on_scalar_wfg; auto. }
        split. { eapply same_frame_trans; [exact F1|apply on_scalar_frame]. }
        split; [auto|]. split; [auto|]. split.
        { intros u v N1 N2. change (edge_type a u v = edge_type g u v). rewrite T1, pair_hit_false; auto. }
        split.
        { intros u Hu. change (phase a u = phase g u). unfold phase. rewrite P1. reflexivity. }
        intros L x ND Ls Lt. rewrite integL_power.
        destruct (integL_edge_change L s t g a x) as [R [E1 E2]]; auto.
        { intros. rewrite T1, pair_hit_false; auto. }
        { intros. unfold phase. rewrite P1. reflexivity. }
        rewrite E1, E2, S1. unfold pw, ew, nw. rewrite (same_frame_isB g a), !(same_frame_isX g a) by auto.
        fold c. rewrite T1, pair_hit_st, Ee. unfold phase. rewrite P1. simpl option_map.
        assert (forall e, tog c (tog c e) = e) as Htt by (intros []; destruct c; reflexivity).
        subst et et1. rewrite Htt. rewrite <- (wt_hh (x s) (x t)). simpl wt at 1. ring.
  - (* new edge *)
    destruct (set_edge_type_spec _ _ _ _ _ (wfg_nedges (gnedges g + 1)%Z g W) H) as [W1 [F1 [P1 [S1 [I1 [I2 T1]]]]]].
    assert (same_frame g g') as F by (unfold same_frame in *; simpl in *; tauto).
    split; [auto|]. split; [auto|]. split; [auto|]. split; [auto|]. split.
    { intros u v N1 N2. rewrite T1, pair_hit_false; auto. }
    split. { intros u Hu. unfold phase. rewrite P1. reflexivity. }
    intros L x ND Ls Lt.
    destruct (integL_edge_change L s t g g' x) as [R [E1 E2]]; auto.
    { intros. rewrite T1, pair_hit_false; auto. }
    { intros. unfold phase. rewrite P1. reflexivity. }
    rewrite E1, E2, S1. unfold pw, ew, nw. rewrite (same_frame_isB g g'), !(same_frame_isX g g') by auto.
    rewrite T1, pair_hit_st, Ee. unfold phase. rewrite P1. simpl. ring.
Qed.
