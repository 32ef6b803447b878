(** The graph store: invariants over every history of edits, and the meaning of
    adding an edge. *)
From Coq Require Import Reals ZArith QArith Qcanon List Bool Arith Lia Permutation.
From Verif Require Import CNum Base ScalarModel ScalarProofs GraphModel GraphSem SumLemmas GraphProofs GraphOps.
Import ListNotations.
Open Scope C_scope.

(** ** Histories of edits *)
(** the graph-editing calls of graph_s.py 86-203 and 279-320 and base.py 675-715 *)
Inductive op :=
| AddVertices (n : nat) | AddVertexIndexed (v : nat) | AddVertex (t : vtype) (q r : Qc) (p : option Qc)
| SetType (v : nat) (t : vtype) | SetPhase (v : nat) (p : Qc) | AddToPhase (v : nat) (p : Qc)
| SetQubit (v : nat) (q : Qc) | SetRow (v : nat) (r : Qc)
| AddEdge (s t : nat) (e : etype) | AddEdges (es : list (nat * nat)) (e : etype) | AddEdgeTable (tab : list ((nat * nat) * (nat * nat)))
| SetEdgeType (s t : nat) (e : etype)
| RemoveEdges (es : list (nat * nat)) | RemoveVertices (vs : list nat) | RemoveIsolated
| SetInputs (l : list nat) | SetOutputs (l : list nat).

Definition run_op (o : op) (g : graph) : res graph :=
  match o with
  | AddVertices n => Ok (fst (add_vertices n g))
  | AddVertexIndexed v => add_vertex_indexed v g
  | AddVertex t q r p => Ok (fst (add_vertex t q r p g))
  | SetType v t => Ok (set_type v t g)
  | SetPhase v p => Ok (set_phase v p g)
  | AddToPhase v p => Ok (add_to_phase v p g)
  | SetQubit v q => Ok (set_qubit v q g)
  | SetRow v r => Ok (set_row v r g)
  | AddEdge s t e => add_edge s t e g
  | AddEdges es e => add_edges es e g
  | AddEdgeTable tab => add_edge_table tab g
  | SetEdgeType s t e => set_edge_type s t e g
  | RemoveEdges es => remove_edges es g
  | RemoveVertices vs => remove_vertices vs g
  | RemoveIsolated => remove_isolated_vertices g
  | SetInputs l => Ok (set_inputs l g)
  | SetOutputs l => Ok (set_outputs l g)
  end.
Definition run_ops (os : list op) (g : graph) : res graph := foldM (fun g o => run_op o g) os g.

(** set_type, set_phase and add_to_phase are only called on existing vertices *)
Definition on_existing (g : graph) (o : op) : Prop :=
  match o with SetType v _ | SetPhase v _ | AddToPhase v _ => In v (vertices g) | _ => True end.
Fixpoint valid_history (os : list op) (g : graph) : Prop :=
  match os with
  | [] => True
  | o :: os => on_existing g o /\ forall g1, run_op o g = Ok g1 -> valid_history os g1
  end.

(** what a user of the store can rely on *)
Record store_ok (g : graph) : Prop := mkstore {
  so_nodup : NoDup (vertices g);
  so_nbr_nodup : forall v, NoDup (neighbors g v);
  so_sym : forall u v, edge_type g u v = edge_type g v u;
  so_nbr : forall u v, In v (neighbors g u) <-> edge_type g u v <> None;
  so_present : forall u v, In v (neighbors g u) -> In u (vertices g) /\ In v (vertices g);
  so_type : forall v, In v (vertices g) <-> vtype_r g v <> Err KeyError;
  so_phase : forall v, In v (vertices g) <-> dmem v (gphase g) = true;
  so_fresh : forall v n, In v (snd (add_vertices n g)) -> ~ In v (vertices g)
}.
Lemma wfg_store : forall g, wfg g -> store_ok g.
Proof.
  intros g W. constructor.
  - apply W.
  - intros; apply neighbors_nd; auto.
  - apply W.
  - intros; apply neighbors_spec.
  - intros u v H. apply neighbors_some in H. destruct H as [e H]. split; [eapply edge_in_l; eauto|eapply edge_in_r; eauto].
  - intros v. rewrite <- (wf_ty g W). unfold vtype_r, of_opt. rewrite <- dget_keys.
    destruct (dget v (gty g)); split; intros; try congruence; eauto. destruct H; discriminate.
  - intros v. rewrite <- (wf_ph g W), dmem_keys. reflexivity.
  - intros v n H Hv. unfold add_vertices in H. cbn [snd] in H. apply in_seq in H. apply (wf_fresh g W) in Hv. lia.
Qed.

Lemma add_one_wfg : forall v g, wfg g -> ~ In v (vertices g) -> (v < gvindex g)%nat -> wfg (add_one_vertex v g) /\ vertices (add_one_vertex v g) = vertices g ++ [v].
Proof.
  intros v g W Hv L.
  assert (VS : vertices (add_one_vertex v g) = vertices g ++ [v]) by (unfold vertices; simpl; apply dkeys_dset_notin; auto).
  assert (ET : forall a b, edge_type (add_one_vertex v g) a b = edge_type g a b).
  { intros a b. unfold edge_type. simpl. rewrite dget_dset. destruct (Nat.eqb_spec a v); auto.
    subst. unfold vertices in Hv. apply dget_none in Hv. rewrite Hv. reflexivity. }
  split; auto. constructor.
  - rewrite VS. apply NoDup_snoc; auto. apply W.
  - intros u d H. simpl in H. rewrite dget_dset in H. destruct (Nat.eqb_spec u v); [injection H as <-; constructor|].
    eapply (wf_inner g W); eauto.
  - intros. rewrite !ET. apply W.
  - intros u. rewrite VS. simpl. rewrite in_dkeys_dset, in_app_iff, (wf_ty g W). simpl. intuition.
  - simpl. apply nodup_dset, W.
  - intros u. rewrite VS. simpl. rewrite in_dkeys_dset, in_app_iff, (wf_ph g W). simpl. intuition.
  - simpl. apply nodup_dset, W.
  - intros u. rewrite VS, in_app_iff. intros [H|[<-|[]]]; [apply (wf_fresh g W u H)|exact L].
Qed.
Lemma add_vertices_wfg : forall n g, wfg g -> wfg (fst (add_vertices n g)) /\ vertices (fst (add_vertices n g)) = vertices g ++ seq (gvindex g) n.
Proof.
  intros n g W. unfold add_vertices. cbn [fst].
  assert (X : forall ids g k, wfg (with_vindex k g) -> NoDup ids -> (forall v, In v ids -> ~ In v (vertices g) /\ (v < k)%nat) ->
    wfg (with_vindex k (fold_left (fun g v => add_one_vertex v g) ids g)) /\
    vertices (with_vindex k (fold_left (fun g v => add_one_vertex v g) ids g)) = vertices g ++ ids).
  { induction ids as [|v ids IH]; intros h k Wh ND H; cbn [fold_left].
    - split; auto. rewrite app_nil_r. reflexivity.
    - inversion ND; subst. destruct (H v (or_introl eq_refl)) as [Nv Lv].
      destruct (add_one_wfg v (with_vindex k h) Wh Nv Lv) as [W1 V1].
      destruct (IH (add_one_vertex v h) k) as [W2 V2]; auto.
      + intros u Hu. destruct (H u (or_intror Hu)). split; auto. change (vertices (add_one_vertex v h)) with (vertices (add_one_vertex v (with_vindex k h))).
        rewrite V1, in_app_iff. intros [X|[<-|[]]]; auto.
      + split; auto. rewrite V2. change (vertices (add_one_vertex v h)) with (vertices (add_one_vertex v (with_vindex k h))).
        rewrite V1, <- app_assoc. reflexivity. }
  apply X.
  - destruct W as [A B C D E F G H]. constructor; auto. intros v Hv. simpl. specialize (H v Hv). lia.
  - apply seq_NoDup.
  - intros v Hv. apply in_seq in Hv. split; [|lia]. intros H. apply (wf_fresh g W) in H. lia.
Qed.
Lemma set_type_wf : forall v t g, wfg g -> In v (vertices g) -> wfg (set_type v t g).
Proof.
  intros v t g [A B C D E F G H] Hv.
  assert (K : dkeys (dset v t (gty g)) = dkeys (gty g)) by (apply dkeys_dset_in; apply D; auto).
  constructor; auto; unfold set_type, with_ty; cbn [gty]; rewrite ?K; auto.
Qed.
Lemma frame_only_wfg : forall g g', gadj g' = gadj g -> gty g' = gty g -> gphase g' = gphase g -> gvindex g' = gvindex g -> wfg g -> wfg g'.
Proof.
  intros g g' E1 E2 E3 E4 [A B C D E F G H].
  assert (vertices g' = vertices g) by (unfold vertices; congruence).
  constructor; try congruence.
  - rewrite E1. exact B.
  - intros u v. unfold edge_type. rewrite E1. apply C.
  - intros v. rewrite E2, H0. auto.
  - intros v. rewrite E3, H0. auto.
  - intros v Hv. rewrite E4. apply H. congruence.
Qed.
Lemma add_vertex_wfg : forall t q r p g, wfg g -> wfg (fst (add_vertex t q r p g)).
Proof.
  intros t q r p g W. unfold add_vertex. cbv zeta. cbn [fst].
  destruct (add_vertices_wfg 1 g W) as [W1 V1]. set (g1 := fst (add_vertices 1 g)) in *.
  assert (I1 : In (gvindex g) (vertices g1)) by (rewrite V1; apply in_or_app; right; simpl; auto).
  assert (W2 := set_type_wf (gvindex g) t g1 W1 I1).
  assert (W3 : wfg (set_row (gvindex g) r (set_qubit (gvindex g) q (set_type (gvindex g) t g1)))) by (eapply frame_only_wfg; [| | | |exact W2]; reflexivity).
  destruct (qeqb _ 0%Qc); auto. apply set_phase_wfg; auto.
Qed.
Lemma add_edge_wfg : forall s t e g g', wfg g -> add_edge s t e g = Ok g' -> wfg g'.
Proof.
  intros s t e g g' W H. destruct (Nat.eq_dec s t) as [->|D].
  - unfold add_edge in H. destruct (dget t (gadj g)) as [ds|] eqn:Es; [|discriminate].
    destruct (dget t ds) as [et1|] eqn:Et.
    + inv_bind H. inv_bind H. destruct (_ && _); [|discriminate].
      destruct (if Bool.eqb _ _ then _ else _) as [fuse hopf].
      destruct (_ && _); [injection H as <-; auto|]. destruct (_ || _).
      * inv_bind H. injection H as <-. apply on_scalar_wfg.
        destruct (set_edge_type_spec _ _ _ _ _ W E1) as [W1 [F1 [_ [_ [_ [It _]]]]]].
        apply add_to_phase_wfg; auto. destruct F1 as [F1 _]. congruence.
      * destruct (_ && _); [|discriminate]. inv_bind H. exfalso. eapply remove_edge_ss; eauto.
    + eapply set_edge_type_spec; [|exact H]. apply wfg_nedges; auto.
  - eapply add_edge_spec; eauto.
Qed.
Lemma foldM_inv : forall A B (f : A -> B -> res A) (I : A -> Prop) l a a', I a ->
  (forall a b a', I a -> In b l -> f a b = Ok a' -> I a') -> foldM f l a = Ok a' -> I a'.
Proof.
  induction l as [|b l IH]; intros a a' HI HS H; cbn [foldM] in H; [injection H as <-; auto|].
  inv_bind H. eapply IH; [| |exact H]; [eapply HS; eauto; simpl; auto|]. intros; eapply HS; eauto; simpl; auto.
Qed.
Lemma iterM_inv : forall A (f : A -> res A) (I : A -> Prop) n a a', I a ->
  (forall a a', I a -> f a = Ok a' -> I a') -> iterM n f a = Ok a' -> I a'.
Proof.
  induction n; intros a a' HI HS H; cbn [iterM] in H; [injection H as <-; auto|].
  inv_bind H. eapply IHn; [| |exact H]; eauto.
Qed.

Lemma run_op_wfg : forall o g g', wfg g -> on_existing g o -> run_op o g = Ok g' -> wfg g'.
Proof.
  intros o g g' W V H. destruct o; cbn [run_op on_existing] in *.
  - injection H as <-. apply add_vertices_wfg; auto.
  - unfold add_vertex_indexed in H. destruct (dmem v (gadj g)) eqn:D; [discriminate|]. injection H as <-.
    assert (~ In v (vertices g)) by (intros X; apply dmem_keys in X; congruence).
    destruct (Nat.leb_spec (gvindex g) v).
    + apply add_one_wfg; auto; [|simpl; lia].
      destruct W as [A B C D0 E F G Hf]. constructor; auto. intros u Hu. simpl. specialize (Hf u Hu). lia.
    + apply add_one_wfg; auto.
  - injection H as <-. apply add_vertex_wfg; auto.
  - injection H as <-. apply set_type_wf; auto.
  - injection H as <-. apply set_phase_wfg; auto.
  - injection H as <-. apply add_to_phase_wfg; auto.
  - injection H as <-. eapply frame_only_wfg; [| | | |exact W]; reflexivity.
  - injection H as <-. eapply frame_only_wfg; [| | | |exact W]; reflexivity.
  - eapply add_edge_wfg; eauto.
  - unfold add_edges in H. eapply (foldM_inv _ _ _ wfg); [exact W| |exact H].
    intros g0 [s t] g1 W0 _ E. eapply set_edge_type_spec; [|exact E]. apply wfg_nedges; auto.
  - unfold add_edge_table in H. eapply (foldM_inv _ _ _ wfg); [exact W| |exact H].
    intros g0 [[s t] [ns nh]] g1 W0 _ E. inv_bind E.
    eapply (iterM_inv _ _ wfg); [eapply (iterM_inv _ _ wfg); [exact W0| |exact E0]| |exact E]; intros; eapply add_edge_wfg; eauto.
  - eapply set_edge_type_spec; [|exact H]; auto.
  - unfold remove_edges in H. eapply (foldM_inv _ _ _ wfg); [exact W| |exact H].
    intros g0 [s t] g1 W0 _ E. destruct (Nat.eq_dec s t) as [->|D]; [exfalso; eapply remove_edge_ss; eauto|].
    eapply remove_edge_spec; eauto.
  - eapply remove_vertices_spec; eauto.
  - unfold remove_isolated_vertices in H. inv_bind H. destruct a as [rem g1].
    assert (W1 : wfg g1).
    { change (wfg (snd (rem, g1))). eapply (foldM_inv _ _ _ (fun st => wfg (snd st))); [|intros [r0 g0] v [r1 g2] W0 _ E0|exact E]; [exact W|].
      cbn [snd] in *. unfold isolated_step in E0. inv_bind E0.
      repeat match goal with
      | H : Ok _ = Ok _ |- _ => injection H as <- <-
      | H : Err _ = Ok _ |- _ => discriminate H
      | H : context [match ?l with [] => _ | _ => _ end] |- _ => destruct l
      | H : bind _ _ = Ok _ |- _ => inv_bind H
      | H : (if ?b then _ else _) = Ok _ |- _ => destruct b
      | H : context [match ?t with BOUNDARY => _ | ZSP => _ | XSP => _ | HBOX => _ end] |- _ => destruct t
      end; auto using on_scalar_wfg. }
    eapply remove_vertices_spec; eauto.
  - injection H as <-. eapply frame_only_wfg; [| | | |exact W]; reflexivity.
  - injection H as <-. eapply frame_only_wfg; [| | | |exact W]; reflexivity.
Qed.
Lemma empty_wfg : wfg empty_graph.
Proof. constructor; simpl; try constructor; intros; try tauto. discriminate. Qed.

Theorem history_store_ok : forall os g, valid_history os empty_graph -> run_ops os empty_graph = Ok g -> store_ok g.
Proof.
  intros os g V H. apply wfg_store. revert V H. assert (W := empty_wfg). revert W. generalize empty_graph as g0.
  induction os as [|o os IH]; intros g0 W V H; unfold run_ops in H; cbn [foldM] in H; [injection H as <-; auto|].
  inv_bind H. destruct V as [V1 V2]. apply (IH a); auto. eapply run_op_wfg; eauto.
Qed.

(** removal really removes *)
Theorem history_removed : forall os g vs g', valid_history os empty_graph -> run_ops os empty_graph = Ok g ->
  remove_vertices vs g = Ok g' -> forall v, In v vs ->
  ~ In v (vertices g') /\ ~ In v (ginputs g') /\ ~ In v (goutputs g') /\ forall u, ~ In v (neighbors g' u).
Proof.
  intros os g vs g' V H E v Hv.
  assert (W : wfg g).
  { clear E. revert V H. assert (W := empty_wfg). revert W. generalize empty_graph as g0.
    induction os as [|o os IH]; intros g0 W V H; unfold run_ops in H; cbn [foldM] in H; [injection H as <-; auto|].
    inv_bind H. destruct V as [V1 V2]. apply (IH a); auto. eapply run_op_wfg; eauto. }
  assert (R := remove_vertices_spec _ _ _ W E).
  assert (M : mem v vs = true) by (apply mem_spec; auto).
  split; [|split; [|split]].
  - rewrite (rm_vs _ _ _ R), filter_In, M. intros [_ X]. discriminate.
  - rewrite (rm_inputs _ _ _ R), filter_In, M. intros [_ X]. discriminate.
  - rewrite (rm_outputs _ _ _ R), filter_In, M. intros [_ X]. discriminate.
  - intros u X. apply neighbors_spec in X. rewrite (rm_edge _ _ _ R), M, orb_true_r in X. auto.
Qed.

(** without the restriction the store can be damaged: set_type on a name that
    does not exist creates a type entry for a vertex that is not there *)
Theorem set_type_absent_refuted : exists os g, run_ops os empty_graph = Ok g /\ ~ store_ok g.
Proof.
  exists [SetType 0 ZSP], (set_type 0 ZSP empty_graph). split; [reflexivity|]. intros S.
  assert (X := proj2 (so_type _ S 0%nat)). simpl in X. apply X. discriminate.
Qed.

(** ** Adding an edge *)
(** weight of a wire of type [et] between spiders s and t of g at bits a, b:
    X spiders carry a Hadamard on every leg *)
Definition wire (g : graph) (et : etype) (s t : nat) (x : assignment) : C :=
  wt (Some (tog (xorb (isX g s) (isX g t)) et)) (x s) (x t).
(** the diagram g together with one more wire between s and t *)
Definition sem_with_edge (g : graph) (s t : nat) (et : etype) (b : assignment) : C :=
  sumv (internal g) (fun x => integL (vertices g) g x * wire g et s t x) b.

Theorem add_edge_sem : forall s t et g g', wfg g -> s <> t -> add_edge s t et g = Ok g' ->
  ginputs g' = ginputs g /\ goutputs g' = goutputs g /\ vertices g' = vertices g /\ (forall v, vty g' v = vty g v) /\
  forall b, sem g' b = sem_with_edge g s t et b.
Proof.
  intros s t et g g' W D H. destruct (add_edge_spec _ _ _ _ _ W D H) as [W1 [F [Is [It [_ [_ I]]]]]].
  assert (F0 := F). destruct F as [F1 [F2 [F3 F4]]]. split; [apply F3|]. split; [apply F4|]. split; auto.
  split; [intros; apply same_frame_vty; auto|].
  intros b. unfold sem, sem_with_edge. rewrite (same_frame_internal g g') by auto. rewrite F1.
  apply sumv_ext. intros x. apply I; auto. apply W.
Qed.
(** when it raises *)
Theorem add_edge_ok : forall s t et g, wfg g -> s <> t -> In s (vertices g) -> In t (vertices g) ->
  (edge_type g s t = None \/ (vertex_is_zx (vty g s) = true /\ vertex_is_zx (vty g t) = true)) ->
  exists g', add_edge s t et g = Ok g'.
Proof.
  intros s t et g W D Is It HC. unfold add_edge.
  destruct (dget s (gadj g)) as [ds|] eqn:Es; [|apply dget_none in Es; contradiction].
  assert (Ee := edge_none_dget g s t ds Es).
  destruct (dget t ds) as [et1|] eqn:Et.
  - destruct HC as [HC|[Z1 Z2]]; [congruence|].
    rewrite !vtype_r_ok by auto. cbn [bind].
    assert (L : forall ty, vertex_is_zx ty = true -> vertex_is_zx_like ty = true) by (intros []; auto).
    rewrite !L by auto. cbn [andb].
    assert (O := set_edge_type_ok s t SIMPLE g Is It). destruct O as [g1 O1].
    assert (O := set_edge_type_ok s t HADAMARD g Is It). destruct O as [g2 O2].
    destruct (remove_edge_ok s t g et1 W D Ee) as [g3 O3].
    destruct (Bool.eqb _ _), et, et1; cbn [etype_eqb andb orb]; rewrite ?O1, ?O2, ?O3; cbn [bind]; eauto.
  - apply set_edge_type_ok; auto.
Qed.
Theorem add_edge_raises : forall s t et g e, wfg g -> s <> t -> add_edge s t et g = Err e ->
  (e = KeyError /\ (~ In s (vertices g) \/ ~ In t (vertices g))) \/
  (e = ValueError /\ edge_type g s t <> None /\ (vertex_is_zx (vty g s) = false \/ vertex_is_zx (vty g t) = false)).
Proof.
  intros s t et g e W D H.
  destruct (in_dec Nat.eq_dec s (vertices g)) as [Is|Is].
  2:{ left. unfold add_edge in H. assert (X := Is). apply dget_none in X. rewrite X in H. injection H as <-. auto. }
  destruct (in_dec Nat.eq_dec t (vertices g)) as [It|It].
  2:{ left. assert (EN : edge_type g s t = None).
      { destruct (edge_type g s t) eqn:E; auto. exfalso. apply It. eapply edge_in_r; eauto. }
      unfold add_edge in H. destruct (dget s (gadj g)) as [ds|] eqn:Es; [|apply dget_none in Es; contradiction].
      rewrite (edge_none_dget g s t ds Es) in EN. rewrite EN in H. unfold set_edge_type in H.
      unfold adj_set in H at 1. cbn [gadj with_nedges] in H. rewrite Es in H. cbn [bind] in H.
      unfold adj_set in H. rewrite dget_dset_neq in H by congruence. assert (X := It). apply dget_none in X. rewrite X in H.
      cbn [bind] in H. injection H as <-. auto. }
  right.
  destruct (edge_type g s t) eqn:ET.
  2:{ exfalso. destruct (add_edge_ok s t et g W D Is It (or_introl ET)) as [g' X]. congruence. }
  destruct (vertex_is_zx (vty g s)) eqn:Z1, (vertex_is_zx (vty g t)) eqn:Z2;
    [exfalso; destruct (add_edge_ok s t et g W D Is It (or_intror (conj Z1 Z2))) as [g' X]; congruence| | |];
  (split; [|split; [discriminate|auto]]; unfold add_edge in H;
   destruct (dget s (gadj g)) as [ds|] eqn:Es; [|apply dget_none in Es; contradiction];
   rewrite (edge_none_dget g s t ds Es) in ET; rewrite ET in H; rewrite !vtype_r_ok in H by auto; cbn [bind] in H;
   assert (L : forall ty, vertex_is_zx ty = false -> vertex_is_zx_like ty = false) by (intros []; auto);
   rewrite ?(L _ Z1), ?(L _ Z2), ?andb_false_r in H; cbn [andb] in H; injection H as <-; reflexivity).
Qed.

(** ** Phases *)
Theorem set_phase_angle : forall g v p, cexp (phase (set_phase v p g) v) = cexp p /\ in02 (phase (set_phase v p g) v) /\
  forall u, u <> v -> phase (set_phase v p g) u = phase g u.
Proof.
  intros. rewrite !phase_set_phase, Nat.eqb_refl. split; [apply cexp_qmod2|]. split; [apply qmod2_range|].
  intros u Hu. rewrite phase_set_phase. apply Nat.eqb_neq in Hu. rewrite Hu. reflexivity.
Qed.
Theorem add_to_phase_angle : forall g v p, cexp (phase (add_to_phase v p g) v) = cexp (phase g v) * cexp p /\ in02 (phase (add_to_phase v p g) v) /\
  forall u, u <> v -> phase (add_to_phase v p g) u = phase g u.
Proof.
  intros. rewrite !phase_add_to_phase, Nat.eqb_refl. split; [rewrite cexp_qmod2; apply cexp_add|]. split; [apply qmod2_range|].
  intros u Hu. rewrite phase_add_to_phase. apply Nat.eqb_neq in Hu. rewrite Hu. reflexivity.
Qed.
