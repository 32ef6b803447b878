(** Generic lemmas for the soundness of batch rewrites. *)
From Coq Require Import Reals ZArith QArith Qcanon List Bool Arith Lia Permutation Ring.
From Verif Require Import CNum Base ScalarModel ScalarProofs GraphModel GraphSem SumLemmas GraphProofs GraphOps RulesModel.
Import ListNotations.
Open Scope nat_scope.
Open Scope C_scope.

Lemma nmem_mem : forall v l, nmem v l = mem v l.
Proof. reflexivity. Qed.
Lemma nmem_spec : forall v l, nmem v l = true <-> In v l.
Proof. exact mem_spec. Qed.
Lemma nmem_false : forall v l, nmem v l = false <-> ~ In v l.
Proof. exact mem_false. Qed.
Lemma ekeq_eq : forall e f, ekeq e f = true <-> e = f.
Proof.
  intros [a b] [c d]. unfold ekeq. simpl. rewrite andb_true_iff, !Nat.eqb_eq.
  split; [intros [-> ->]; reflexivity | intros H; injection H; auto].
Qed.
Lemma ekeq_refl : forall e, ekeq e e = true.
Proof. intros. apply ekeq_eq. reflexivity. Qed.
Lemma ekeq_neq : forall e f, e <> f -> ekeq e f = false.
Proof. intros. destruct (ekeq e f) eqn:E; auto. apply ekeq_eq in E. contradiction. Qed.
Lemma emem_spec : forall e l, emem e l = true <-> In e l.
Proof.
  intros. unfold emem. rewrite existsb_exists. split.
  - intros [f [H E]]. apply ekeq_eq in E. subst; auto.
  - intros. exists e. rewrite ekeq_refl. auto.
Qed.
Lemma emem_false : forall e l, emem e l = false <-> ~ In e l.
Proof. intros. rewrite <- emem_spec. destruct (emem e l); split; congruence. Qed.

Lemma nodup_app_inv : forall A (l1 l2 : list A), NoDup (l1 ++ l2) ->
  NoDup l1 /\ NoDup l2 /\ forall a, In a l1 -> ~ In a l2.
Proof.
  induction l1 as [|a l1 IH]; simpl; intros l2 N; [repeat split; auto; constructor|].
  inversion N; subst. destruct (IH _ H2) as [A1 [A2 A3]]. rewrite in_app_iff in H1.
  repeat split; auto; [constructor; auto|]. intros b [->|Hb] Hc; [tauto|exact (A3 b Hb Hc)].
Qed.
Lemma nodup_app : forall A (l1 l2 : list A), NoDup l1 -> NoDup l2 -> (forall a, In a l1 -> ~ In a l2) -> NoDup (l1 ++ l2).
Proof.
  induction l1 as [|a l1 IH]; simpl; intros l2 N1 N2 D; auto. inversion N1; subst. constructor.
  - rewrite in_app_iff. intros [H|H]; [auto|exact (D a (or_introl eq_refl) H)].
  - apply IH; auto.
Qed.

(** ** Edge tables *)
Definition cnt (e : edge) (tab : etab) : nat * nat :=
  match etab_get e tab with Some c => c | None => (0, 0)%nat end.
Definition tab_nd (tab : etab) : Prop := NoDup (map fst tab).

Lemma etab_get_in : forall e tab c, etab_get e tab = Some c -> In (e, c) tab.
Proof.
  induction tab as [|[f d] tab IH]; simpl; intros; [discriminate|].
  destruct (ekeq e f) eqn:E; [apply ekeq_eq in E; subst; injection H as ->; auto | auto].
Qed.
Lemma in_etab_get : forall e tab c, tab_nd tab -> In (e, c) tab -> etab_get e tab = Some c.
Proof.
  induction tab as [|[f d] tab IH]; simpl; intros c N H; [contradiction|].
  inversion N; subst. destruct H as [H|H].
  - injection H as -> ->. rewrite ekeq_refl. reflexivity.
  - rewrite ekeq_neq; [auto|]. intros ->. apply H2. apply (in_map fst _ _ H).
Qed.
Lemma etab_get_none : forall e tab, etab_get e tab = None -> ~ In e (map fst tab).
Proof.
  induction tab as [|[f d] tab IH]; simpl; intros H; [auto|].
  destruct (ekeq e f) eqn:E; [discriminate|]. intros [->|I]; [rewrite ekeq_refl in E; discriminate|].
  exact (IH H I).
Qed.
Lemma etab_set_keys : forall e c tab,
  map fst (etab_set e c tab) = match etab_get e tab with Some _ => map fst tab | None => map fst tab ++ [e] end.
Proof.
  induction tab as [|[f d] tab IH]; simpl; [reflexivity|].
  destruct (ekeq e f); simpl; [reflexivity|]. rewrite IH. destruct (etab_get e tab); reflexivity.
Qed.
Lemma etab_set_nd : forall e c tab, tab_nd tab -> tab_nd (etab_set e c tab).
Proof.
  unfold tab_nd; intros. rewrite etab_set_keys. destruct (etab_get e tab) eqn:E; auto.
  apply NoDup_snoc; auto. apply etab_get_none; auto.
Qed.
Lemma etab_get_set : forall e c tab f, etab_get f (etab_set e c tab) = if ekeq f e then Some c else etab_get f tab.
Proof.
  induction tab as [|[k d] tab IH]; simpl; intros f; [reflexivity|].
  destruct (ekeq e k) eqn:E.
  - apply ekeq_eq in E; subst k. simpl. destruct (ekeq f e); reflexivity.
  - simpl. rewrite IH. destruct (ekeq f k) eqn:F; [|reflexivity].
    apply ekeq_eq in F; subst k. destruct (ekeq f e) eqn:F; [|reflexivity].
    apply ekeq_eq in F; subst. rewrite ekeq_refl in E. discriminate.
Qed.
Lemma cnt_set : forall e c tab f, cnt f (etab_set e c tab) = if ekeq f e then c else cnt f tab.
Proof. intros. unfold cnt. rewrite etab_get_set. destruct (ekeq f e); reflexivity. Qed.

Lemma entw_0 : forall g e x, entw g (e, (0, 0)%nat) x = C1.
Proof. intros g [s t] x. unfold entw. simpl. ring. Qed.

Lemma tabw_app : forall g a b x, tabw g (a ++ b) x = tabw g a x * tabw g b x.
Proof. intros. apply cprod_app. Qed.

Lemma etab_set_w : forall g e c tab x, tab_nd tab -> exists R,
  tabw g tab x = R * entw g (e, cnt e tab) x /\ tabw g (etab_set e c tab) x = R * entw g (e, c) x.
Proof.
  intros g e c tab x. induction tab as [|[f d] tab IH]; intros N.
  - exists C1. unfold cnt. simpl etab_get. cbv iota. rewrite entw_0. unfold tabw. simpl cprod.
    split; [ring|]. change (entw g (e, c) x * C1 = C1 * entw g (e, c) x). ring.
  - inversion N; subst. destruct (IH H2) as [R [A B]]. clear IH.
    unfold cnt in *. simpl etab_get. simpl etab_set. destruct (ekeq e f) eqn:E.
    + apply ekeq_eq in E. subst f. exists (tabw g tab x). unfold tabw. simpl. split; ring.
    + exists (entw g (f, d) x * R). unfold tabw in *. cbn [cprod]. rewrite A, B. split; ring.
Qed.

Lemma etab_add_nd : forall e et tab, tab_nd tab -> tab_nd (etab_add e et tab).
Proof.
  intros. unfold etab_add. destruct (match etab_get e tab with Some c => c | None => (0,0)%nat end).
  apply etab_set_nd; auto.
Qed.
Definition inc (et : etype) (c : nat * nat) : nat * nat :=
  match et with SIMPLE => (S (fst c), snd c) | HADAMARD => (fst c, S (snd c)) end.
Lemma etab_add_set : forall e et tab, etab_add e et tab = etab_set e (inc et (cnt e tab)) tab.
Proof.
  intros. unfold etab_add, cnt. destruct (etab_get e tab) as [[a b]|]; destruct et; simpl;
  rewrite ?Nat.add_1_r; reflexivity.
Qed.
Lemma cnt_add : forall e et tab f, cnt f (etab_add e et tab) = if ekeq f e then inc et (cnt e tab) else cnt f tab.
Proof. intros. rewrite etab_add_set. apply cnt_set. Qed.
Lemma entw_inc : forall g s t et c x, entw g ((s,t), inc et c) x = entw g ((s,t), c) x * nw g et s t x.
Proof. intros g s t et [a b] x. unfold entw, inc. destruct et; simpl; ring. Qed.
Lemma tabw_add : forall g s t et tab x, tab_nd tab -> tabw g (etab_add (s,t) et tab) x = tabw g tab x * nw g et s t x.
Proof.
  intros. rewrite etab_add_set. destruct (etab_set_w g (s,t) (inc et (cnt (s,t) tab)) tab x H) as [R [A B]].
  rewrite A, B, entw_inc.
  ring.
Qed.
Lemma etab_had_add : forall e tab, fst (cnt e tab) = O -> etab_had e tab = etab_add e HADAMARD tab.
Proof.
  intros. rewrite etab_add_set. unfold etab_had, cnt in *. destruct (etab_get e tab) as [[a b]|]; simpl in *.
  - subst a. rewrite Nat.add_1_r. reflexivity.
  - reflexivity.
Qed.

(** All entries that carry edges join two different vertices of L. *)
Definition tabL (L : list nat) (tab : etab) : Prop :=
  tab_nd tab /\ forall s t, cnt (s,t) tab = (0,0)%nat \/ (s <> t /\ In s L /\ In t L).
Lemma tabL_nil : forall L, tabL L [].
Proof. intros. split; [constructor|]. intros. left. reflexivity. Qed.
Lemma tabL_add : forall L s t et tab, tabL L tab -> s <> t -> In s L -> In t L -> tabL L (etab_add (s,t) et tab).
Proof.
  intros L s t et tab [N H] Hst Hs Ht. split; [apply etab_add_nd; auto|].
  intros u v. rewrite cnt_add. destruct (ekeq (u,v) (s,t)) eqn:E; [|apply H].
  apply ekeq_eq in E. injection E as -> ->. auto.
Qed.
Lemma tabL_ok : forall L tab, tabL L tab -> tab_ok L tab.
Proof.
  intros L tab [N H] s t ns nh I. apply in_etab_get in I; auto.
  specialize (H s t). unfold cnt in H. rewrite I in H. destruct H as [H|H]; [injection H as -> ->; auto | auto].
Qed.

(** ** Phase additions to a list of vertices *)
Lemma add_phases_spec : forall L vs a g, wfg g -> NoDup L ->
  (forall v, In v vs -> In v L /\ In v (vertices g) /\ isB g v = false) ->
  let g' := add_phases vs a g in
  wfg g' /\ same_frame g g' /\ gadj g' = gadj g /\ gscalar g' = gscalar g /\
  (forall u, ~ In u vs -> phase g' u = phase g u) /\
  forall x, integL L g' x = integL L g x * cprod (fun v => ephase a (x v)) vs.
Proof.
  intros L vs a. unfold add_phases. induction vs as [|v vs IH]; intros g W N H; simpl.
  - refine (conj W (conj (same_frame_refl g) (conj eq_refl (conj eq_refl (conj (fun _ _ => eq_refl) _))))). intros; ring.
  - destruct (H v (or_introl eq_refl)) as [H1 [H2 H3]].
    assert (F := add_to_phase_frame v a g).
    specialize (IH (add_to_phase v a g)). simpl in IH.
    destruct IH as [A1 [A2 [A3 [A4 [A5 A6]]]]]; auto.
    + apply add_to_phase_wfg; auto.
    + intros u Hu. destruct (H u (or_intror Hu)) as [B1 [B2 B3]]. repeat split; auto.
    + split; [auto|]. split; [exact (same_frame_trans _ _ _ F A2)|].
      split; [rewrite A3; reflexivity|]. split; [rewrite A4; reflexivity|]. split.
      * intros u Hu. rewrite A5 by tauto. rewrite phase_add_to_phase.
        destruct (Nat.eqb_spec u v); [subst; tauto|reflexivity].
      * intros x. rewrite A6, integL_add_to_phase by auto. ring.
Qed.

(** ** Batches *)
(** Part of the product of weights that involves the vertices V, the rest of
    the diagram being restricted to the vertices rest. *)
Definition loc (g : graph) (V rest : list nat) (x : assignment) : C :=
  cprod (fun v => pw g v (x v)) V * pprod (fun u v => ew g u v (x u) (x v)) V
  * cprod (fun u => cprod (fun v => ew g u v (x u) (x v)) rest) V.

Lemma cprod_flat_map : forall A (f : nat -> C) (h : A -> list nat) l,
  cprod f (flat_map h l) = cprod (fun a => cprod f (h a)) l.
Proof. induction l as [|a l IH]; simpl; [reflexivity|]. rewrite cprod_app, IH. reflexivity. Qed.

Lemma ew_none : forall g u v a b, edge_type g u v = None -> ew g u v a b = C1.
Proof. intros. unfold ew. rewrite H. reflexivity. Qed.

Definition apart {A} (g : graph) (vs : A -> list nat) (m m' : A) : Prop :=
  forall a b, In a (vs m) -> In b (vs m') -> edge_type g a b = None.

Lemma integL_batch : forall A (vs : A -> list nat) g ms rest x,
  ForallOrdPairs (apart g vs) ms ->
  integL (flat_map vs ms ++ rest) g x = integL rest g x * cprod (fun m => loc g (vs m) rest x) ms.
Proof.
  intros A vs g ms rest x H. induction H as [|m ms F P IH]; simpl; [ring|].
  rewrite <- app_assoc, integL_app, IH. unfold loc at 2.
  rewrite (cprod_ext _ (fun u => cprod (fun v => ew g u v (x u) (x v)) (flat_map vs ms ++ rest))
            (fun u => cprod (fun v => ew g u v (x u) (x v)) rest)).
  { ring. }
  intros u Hu. rewrite cprod_app, cprod_flat_map.
  rewrite (cprod_1 _ _ ms); [ring|]. intros m' Hm'. apply cprod_1. intros v Hv.
  apply ew_none. rewrite Forall_forall in F. exact (F m' Hm' u v Hu Hv).
Qed.

Lemma cprod_upd_out : forall (f : nat -> bool -> C) l x v b, ~ In v l ->
  cprod (fun u => f u (upd x v b u)) l = cprod (fun u => f u (x u)) l.
Proof. intros. apply cprod_ext. intros u Hu. rewrite upd_other; auto. intros ->; auto. Qed.

Lemma loc_indep : forall g V rest x v b, ~ In v V -> ~ In v rest -> loc g V rest (upd x v b) = loc g V rest x.
Proof.
  intros. unfold loc. f_equal; [f_equal|].
  - apply cprod_ext; intros u Hu. rewrite upd_other; auto. intros ->; auto.
  - apply pprod_ext; intros u w Hu Hw. rewrite !upd_other; auto; intros ->; auto.
  - apply cprod_ext; intros u Hu. apply cprod_ext; intros w Hw.
    rewrite !upd_other; auto; intros ->; auto.
Qed.

Lemma batch_sum : forall A (vs : A -> list nat) g ms rest x,
  NoDup (flat_map vs ms ++ rest) -> ForallOrdPairs (apart g vs) ms ->
  sumv (flat_map vs ms) (integL (flat_map vs ms ++ rest) g) x
  = integL rest g x * cprod (fun m => sumv (vs m) (loc g (vs m) rest) x) ms.
Proof.
  intros A vs g ms rest x N P.
  assert (D : forall v, In v (flat_map vs ms) -> ~ In v rest).
  { intros v Hv Hr. apply in_split in Hv. destruct Hv as [l1 [l2 E]]. rewrite E in N.
    rewrite <- app_assoc in N. simpl in N. apply NoDup_remove_2 in N. apply N.
    rewrite !in_app_iff. auto. }
  rewrite (sumv_ext _ _ (fun y => integL rest g y * cprod (fun m => loc g (vs m) rest y) ms)).
  2:{ intros y. apply integL_batch; auto. }
  rewrite sumv_mult_indep.
  - f_equal. apply sumv_groups.
    + apply nodup_app_inv in N. tauto.
    + intros m y w c Hm Hw Hn. apply loc_indep; auto.
  - intros y v b Hv. apply integL_indep; auto.
Qed.

Lemma cprod_nbrs : forall g u rest N (h : nat -> C) , NoDup rest -> NoDup N ->
  (forall v, In v N <-> In v rest /\ edge_type g u v <> None) ->
  (forall v, edge_type g u v = None -> h v = C1) ->
  cprod h rest = cprod h N.
Proof.
  intros g u rest N h ND1 ND2 H H1.
  rewrite (cprod_perm _ _ _ _ (filter_split_perm (fun v => match edge_type g u v with Some _ => true | None => false end) rest)).
  rewrite cprod_app. rewrite (cprod_1 _ h (filter (fun a => negb _) rest)).
  2:{ intros a Ha. apply filter_In in Ha. destruct Ha as [_ Ha]. apply H1. destruct (edge_type g u a); [discriminate|auto]. }
  rewrite Cmult_1_r. apply cprod_perm. apply nodup_same_perm; auto.
  - apply NoDup_filter; auto.
  - intros a. rewrite filter_In, H. destruct (edge_type g u a); intuition congruence.
Qed.

(** ** Regrouping: replace the internal vertices A by A' *)
Lemma filter_perm : forall (f : nat -> bool) l1 l2, Permutation l1 l2 -> Permutation (filter f l1) (filter f l2).
Proof.
  induction 1; simpl; auto.
  - destruct (f x); auto.
  - destruct (f y), (f x); auto. apply perm_swap.
  - eapply perm_trans; eauto.
Qed.

Lemma sem_split : forall g A core b, wfg g ->
  Permutation (vertices g) (A ++ core) ->
  (forall v, In v A -> isB g v = false) ->
  sem g b = sumv (filter (fun v => negb (isB g v)) core) (sumv A (integL (A ++ core) g)) b.
Proof.
  intros g A core b W P HB. unfold sem, internal.
  assert (N : NoDup (A ++ core)) by (eapply Permutation_NoDup; [exact P|apply wf_nd; auto]).
  rewrite (sumv_ext _ _ (integL (A ++ core) g)) by (intros; apply integL_perm; auto).
  assert (P1 : Permutation (filter (fun v => negb (isB g v)) (vertices g))
                 (filter (fun v => negb (isB g v)) core ++ A)).
  { eapply perm_trans; [apply filter_perm; exact P|]. rewrite filter_app.
    rewrite (filter_true _ _ A). 2:{ intros a Ha. rewrite HB; auto. }
    apply Permutation_app_comm. }
  rewrite (sumv_perm _ _ P1). 2:{ apply NoDup_filter. apply wf_nd; auto. }
  apply sumv_app.
Qed.

Lemma sem_regroup : forall g g' A A' core, wfg g -> wfg g' ->
  Permutation (vertices g) (A ++ core) -> Permutation (vertices g') (A' ++ core) ->
  (forall v, In v A -> isB g v = false) -> (forall v, In v A' -> isB g' v = false) ->
  (forall v, In v core -> isB g' v = isB g v) ->
  (forall x, sumv A (integL (A ++ core) g) x = sumv A' (integL (A' ++ core) g') x) ->
  forall b, sem g' b = sem g b.
Proof.
  intros g g' A A' core W W' P P' B B' BC H b.
  rewrite (sem_split g A core), (sem_split g' A' core) by auto.
  rewrite (sumv_ext _ _ _ _ H).
  f_equal. apply filter_ext_in. intros. rewrite BC; auto.
Qed.

(** Weights depend only on the vertices involved. *)
Lemma integL_ext : forall g g' L x, gscalar g' = gscalar g ->
  (forall v, In v L -> vty g' v = vty g v /\ phase g' v = phase g v) ->
  (forall u v, In u L -> In v L -> edge_type g' u v = edge_type g u v) ->
  integL L g' x = integL L g x.
Proof.
  intros g g' L x S V E. unfold integL. rewrite S. f_equal; [f_equal|].
  - apply cprod_ext. intros v Hv. unfold pw, isB. destruct (V v Hv) as [-> ->]. reflexivity.
  - apply pprod_ext. intros u v Hu Hv. unfold ew, isX. destruct (V u Hu) as [-> _], (V v Hv) as [-> _].
    rewrite E; auto.
Qed.

Lemma ForallOrdPairs_imp : forall A (R R' : A -> A -> Prop) l,
  (forall a b, In a l -> In b l -> R a b -> R' a b) -> ForallOrdPairs R l -> ForallOrdPairs R' l.
Proof.
  intros A R R' l H F. induction F as [|a l F1 F2 IH]; constructor.
  - rewrite Forall_forall in *. intros b Hb. apply H; simpl; auto.
  - apply IH. intros; apply H; simpl; auto.
Qed.

(** ** From a batch to the whole diagram *)
(** Well-formed ZX-diagrams: no self loops, only boundary, Z and X vertices,
    inputs and outputs are boundary vertices of the diagram. *)
Record zxok (g : graph) : Prop := mkzxok {
  zx_wf : wfg g;
  zx_noloop : noloop g;
  zx_zx : zx_types g;
  zx_ph : forall v, In v (vertices g) -> in02 (phase g v);
  zx_io : forall v, In v (ginputs g) \/ In v (goutputs g) -> In v (vertices g) /\ isB g v = true
}.
(** A property of phases that holds for all vertices; [pclosed] properties
    survive the phase changes made by the code. *)
Definition allph (P : Qc -> Prop) (g : graph) : Prop := forall v, In v (vertices g) -> P (phase g v).
Definition pclosed (P : Qc -> Prop) : Prop := forall p q, P p -> quarter q \/ P q -> P (qmod2 (p + q)%Qc).
Lemma in02_closed : pclosed in02.
Proof. intros p q _ _. apply qmod2_range. Qed.
Lemma quarter_closed : pclosed quarter.
Proof. intros p q Hp [Hq|Hq]; apply quarter_mod2, quarter_add; auto. Qed.

Lemma allph_frame : forall P g g', same_frame g g' -> gphase g' = gphase g -> allph P g -> allph P g'.
Proof. intros P g g' F E H v Hv. unfold phase. rewrite E. apply H. destruct F as [F _]. rewrite <- F; auto. Qed.
Lemma allph_add_to_phase : forall P g v a, pclosed P -> In v (vertices g) -> quarter a \/ P a -> allph P g -> allph P (add_to_phase v a g).
Proof.
  intros P g v a C I Q H u Hu. rewrite phase_add_to_phase.
  destruct (Nat.eqb_spec u v); [|apply H; auto]. apply C; auto.
Qed.
Lemma allph_add_phases : forall P vs g a, pclosed P -> (forall v, In v vs -> In v (vertices g)) -> quarter a \/ P a ->
  allph P g -> allph P (add_phases vs a g).
Proof.
  intros P vs. unfold add_phases. induction vs as [|v vs IH]; simpl; intros g a C I Q H; auto.
  apply (IH (add_to_phase v a g)); try assumption; [intros; apply I; auto|]. apply allph_add_to_phase; auto.
Qed.
Lemma allph_set_phase : forall (P : Qc -> Prop) g v a, P (qmod2 a) -> allph P g -> allph P (set_phase v a g).
Proof.
  intros P g v a Q H u Hu. rewrite phase_set_phase. destruct (Nat.eqb_spec u v); auto.
Qed.
Lemma allph_set_edge_type : forall P s t et g g', wfg g -> set_edge_type s t et g = Ok g' -> allph P g -> allph P g'.
Proof.
  intros. destruct (set_edge_type_spec _ _ _ _ _ H H0) as (_ & F & E & _). eapply allph_frame; eauto.
Qed.
Lemma allph_add_edge : forall P s t et g g', pclosed P -> wfg g -> s <> t -> add_edge s t et g = Ok g' -> allph P g -> allph P g'.
Proof.
  intros P s t et g g' C W N H A. unfold add_edge in H.
  destruct (dget s (gadj g)) as [ds|] eqn:Ds; [|discriminate].
  destruct (dget t ds) as [et1|] eqn:Dt.
  - inv_bind H. inv_bind H. destruct (vertex_is_zx_like a && vertex_is_zx_like a0); [|discriminate].
    destruct (if Bool.eqb _ _ then _ else _) as [fuse hopf].
    destruct (etype_eqb et fuse && etype_eqb et1 fuse); [injection H as <-; auto|].
    match goal with H : (if ?b then _ else _) = _ |- _ => destruct b end.
    + inv_bind H. injection H as <-. destruct (set_edge_type_spec _ _ _ _ _ W E1) as (_ & F & E2 & _ & I & _).
      apply (allph_frame P (add_to_phase s 1%Qc a1)); auto using on_scalar_frame.
      apply allph_add_to_phase; auto; [|left; apply quarter_1|eapply allph_set_edge_type; eauto].
      destruct F as [-> _]. auto.
    + destruct (etype_eqb et hopf && etype_eqb et1 hopf); [|discriminate]. inv_bind H. injection H as <-.
      destruct (remove_edge_spec _ _ _ _ W N E1) as (_ & F & E2 & _).
      apply (allph_frame P a1); auto using on_scalar_frame. eapply allph_frame; eauto.
  - apply (allph_set_edge_type P s t et (with_nedges (gnedges g + 1)%Z g)); auto. apply wfg_nedges; auto.
Qed.
Lemma allph_add_edge_table : forall P L tab g g', pclosed P -> NoDup L -> wfg g -> tab_ok L tab -> add_edge_table tab g = Ok g' -> allph P g -> allph P g'.
Proof.
  intros P L tab. induction tab as [|[[s t] [ns nh]] tab IH]; intros g g' C ND W T H A.
  - simpl in H. injection H as <-. auto.
  - unfold add_edge_table in H. simpl in H. inv_bind H. inv_bind E.
    assert (TT : tab_ok L tab) by (intros s' t' a' b' Hin; apply T; right; auto).
    destruct (T s t ns nh (or_introl eq_refl)) as [[-> ->]|[N [I1 I2]]].
    + simpl in E, E0. injection E0 as <-. injection E as <-. apply (IH g g'); auto.
    + assert (IT : forall n et g0 g1, wfg g0 -> iterM n (add_edge s t et) g0 = Ok g1 -> allph P g0 -> allph P g1).
      { induction n as [|n IHn]; simpl; intros et g0 g1 W0 H0 A0; [injection H0 as <-; auto|].
        inv_bind H0. apply (IHn et a1 g1); auto.
        - apply (add_edge_spec s t et g0 a1); auto.
        - eapply allph_add_edge; eauto. }
      destruct (iter_edge_effect ns L s t SIMPLE g a0 ND W N I1 I2 E0) as [W0 _].
      destruct (iter_edge_effect nh L s t HADAMARD a0 a ND W0 N I1 I2 E) as [W1 _].
      apply (IH a g'); auto. apply (IT nh HADAMARD a0 a); auto. apply (IT ns SIMPLE g a0); auto.
Qed.
Lemma allph_removed : forall P vs g g', removed vs g g' -> allph P g -> allph P g'.
Proof.
  intros P vs g g' R A v Hv. rewrite (rm_vs _ _ _ R), filter_In, negb_true_iff, mem_false in Hv.
  rewrite (rm_phase _ _ _ R); [|tauto]. apply A; tauto.
Qed.

(** ** Same map up to a factor in K (K = {1}: exactly the same map) *)
Definition step_k (K : C -> Prop) (g g' : graph) : Prop :=
  zxok g' /\ ginputs g' = ginputs g /\ goutputs g' = goutputs g /\
  exists k, K k /\ forall b, sem g' b = k * sem g b.
Definition kmon (K : C -> Prop) : Prop := K C1 /\ forall a b, K a -> K b -> K (a * b).
Lemma step_k_trans : forall K a b c, kmon K -> step_k K a b -> step_k K b c -> step_k K a c.
Proof.
  intros K a b c [_ M] [Z1 [I1 [O1 [k1 [H1 S1]]]]] [Z2 [I2 [O2 [k2 [H2 S2]]]]].
  split; auto. split; [congruence|]. split; [congruence|]. exists (k2 * k1). split; auto.
  intros. rewrite S2, S1. ring.
Qed.
Definition step_ok (g g' : graph) : Prop := zxok g' /\ same_map g g'.
Lemma step_ok_k : forall K g g', kmon K -> step_ok g g' -> step_k K g g'.
Proof. intros K g g' [M _] [Z [I [O S]]]. split; auto. split; auto. split; auto. exists C1. split; auto. intros; rewrite S; ring. Qed.
Lemma step_k_ok : forall g g', step_k (eq C1) g g' -> step_ok g g'.
Proof. intros g g' [Z [I [O [k [<- S]]]]]. split; auto. split; auto. split; auto. intros; rewrite S; ring. Qed.
Lemma step_ok_refl : forall g, zxok g -> step_ok g g.
Proof. intros. split; auto. repeat split; auto. Qed.
Lemma step_ok_trans : forall a b c, step_ok a b -> step_ok b c -> step_ok a c.
Proof.
  intros a b c [Z1 [I1 [O1 S1]]] [Z2 [I2 [O2 S2]]]. split; auto. repeat split.
  - congruence.
  - congruence.
  - intros. rewrite S2; auto.
Qed.

Lemma zx_cases : forall g v, zx_types g -> In v (vertices g) -> isB g v = false ->
  vty g v = ZSP \/ vty g v = XSP.
Proof.
  intros g v Z I B. unfold isB in B. specialize (Z v I). destruct (vty g v); auto; discriminate || congruence.
Qed.

Definition keep (rem : list nat) (g : graph) : list nat := filter (fun u => negb (mem u rem)) (vertices g).
Lemma in_keep : forall rem g v, In v (keep rem g) <-> In v (vertices g) /\ ~ In v rem.
Proof.
  intros. unfold keep. rewrite filter_In. rewrite negb_true_iff, mem_false. tauto.
Qed.
Lemma keep_nd : forall rem g, wfg g -> NoDup (keep rem g).
Proof. intros. apply NoDup_filter. apply wf_nd; auto. Qed.

Lemma frame_zxok : forall g g', zxok g -> wfg g' -> same_frame g g' -> noloop g' -> allph in02 g' -> zxok g'.
Proof.
  intros g g' [W N Z P IO] W' F N' P'. assert (F0 := F). destruct F0 as (F1 & F2 & F3 & F4 & _).
  constructor; auto.
  - intros v Hv. rewrite (same_frame_vty g g'); auto. apply Z. rewrite <- F1; auto.
  - intros v. rewrite F3, F4, F1, (same_frame_isB g g'); auto.
Qed.

Lemma removed_zxok : forall vs g g', zxok g -> removed vs g g' ->
  (forall v, In v vs -> isB g v = false) ->
  zxok g' /\ ginputs g' = ginputs g /\ goutputs g' = goutputs g.
Proof.
  intros vs g g' [W N Z P IO] R HB.
  assert (I : ginputs g' = ginputs g).
  { rewrite (rm_inputs _ _ _ R). apply filter_true. intros a Ha.
    destruct (mem a vs) eqn:M; auto. apply mem_spec in M. specialize (HB a M).
    destruct (IO a) as [_ X]; auto. congruence. }
  assert (O : goutputs g' = goutputs g).
  { rewrite (rm_outputs _ _ _ R). apply filter_true. intros a Ha.
    destruct (mem a vs) eqn:M; auto. apply mem_spec in M. specialize (HB a M).
    destruct (IO a) as [_ X]; auto. congruence. }
  assert (V : forall v, In v (vertices g') <-> In v (vertices g) /\ ~ In v vs).
  { intros v. rewrite (rm_vs _ _ _ R), filter_In, negb_true_iff, mem_false. tauto. }
  split; [|auto]. constructor.
  - exact (rm_wf _ _ _ R).
  - eapply removed_noloop; eauto.
  - intros v Hv. apply V in Hv. rewrite (rm_ty _ _ _ R); [|tauto]. apply Z; tauto.
  - eapply allph_removed; eauto.
  - intros v Hv. rewrite I, O in Hv. destruct (IO v Hv) as [A B].
    assert (~ In v vs) by (intros X; rewrite (HB v X) in B; discriminate).
    split; [apply V; auto|]. unfold isB. rewrite (rm_ty _ _ _ R); auto.
Qed.

Lemma batch_sound : forall g rem g1 tab g2 g3, zxok g -> NoDup rem ->
  (forall v, In v rem -> In v (vertices g) /\ isB g v = false) ->
  wfg g1 -> same_frame g g1 -> gadj g1 = gadj g -> allph in02 g1 -> tabL (keep rem g) tab ->
  (forall x, sumv rem (integL (rem ++ keep rem g) g) x = integL (keep rem g) g1 x * tabw g tab x) ->
  add_edge_table tab g1 = Ok g2 -> remove_vertices rem g2 = Ok g3 -> step_ok g g3.
Proof.
  intros g rem g1 tab g2 g3 ZX ND HR W1 F1 A1 P1 T H E2 E3.
  assert (W := zx_wf g ZX).
  assert (EF := add_edge_table_effect (keep rem g) tab g1 g2 (keep_nd rem g W) W1 (tabL_ok _ _ T) E2).
  destruct EF as [W2 [F2 [NE [NP I2]]]].
  assert (R := remove_vertices_spec rem g2 g3 W2 E3).
  assert (F12 : same_frame g g2) by (eapply same_frame_trans; eauto).
  assert (ZX2 : zxok g2).
  { apply (frame_zxok g); auto.
    - intros v. rewrite NE by auto. unfold edge_type. rewrite A1. apply (zx_noloop g ZX).
    - eapply allph_add_edge_table; [exact in02_closed|exact (keep_nd rem g W)|exact W1|exact (tabL_ok _ _ T)|exact E2|exact P1]. }
  destruct (removed_zxok rem g2 g3 ZX2 R) as [ZX3 [I3 O3]].
  { intros v Hv. rewrite (same_frame_isB g g2); auto. apply HR; auto. }
  split; auto. assert (F0 := F12). destruct F0 as (Fv & Ft & Fi & Fo & _).
  split; [congruence|]. split; [congruence|].
  assert (V3 : vertices g3 = keep rem g).
  { rewrite (rm_vs _ _ _ R). unfold keep. rewrite Fv. reflexivity. }
  apply (sem_regroup g g3 rem [] (keep rem g)); auto.
  - apply (rm_wf _ _ _ R).
  - apply vertices_split; auto. intros; apply HR; auto.
  - simpl. rewrite V3. apply Permutation_refl.
  - intros; apply HR; auto.
  - simpl. tauto.
  - intros v Hv. unfold isB. rewrite (rm_ty _ _ _ R); [|apply in_keep in Hv; tauto].
    rewrite (same_frame_vty g g2); auto.
  - intros x. simpl. rewrite H. rewrite (integL_removed rem g2 g3 (keep rem g) x R).
    + rewrite I2, (tabw_frame g g1); auto.
    + intros u Hu. apply in_keep in Hu. tauto.
Qed.

(** Properties of phases preserved by all rules. *)
Definition pcl (P : Qc -> Prop) : Prop :=
  pclosed P /\ (forall p, P p -> P (qmod2 (- p)%Qc)) /\ P 0%Qc.
Lemma pcl_in02 : pcl in02.
Proof.
  split; [exact in02_closed|]. split; [intros; apply qmod2_range|].
  split; unfold Qle, Qlt; simpl; lia.
Qed.
Lemma pcl_quarter : pcl quarter.
Proof.
  split; [exact quarter_closed|]. split; [intros; apply quarter_mod2, quarter_opp; auto|apply quarter_0].
Qed.
Lemma pcl_True : pcl (fun _ => True).
Proof. repeat split. Qed.

Lemma flat_map_single : forall A B (f : A -> B) l, flat_map (fun a => [f a]) l = map f l.
Proof. induction l; simpl; congruence. Qed.

Lemma foldM_app : forall A S (f : S -> A -> res S) l1 l2 s,
  foldM f (l1 ++ l2) s = let* s1 := foldM f l1 s in foldM f l2 s1.
Proof. induction l1 as [|a l1 IH]; simpl; intros; auto. destruct (f s a); simpl; auto. Qed.

Lemma FOP_in : forall A (R : A -> A -> Prop) l a b, ForallOrdPairs R l -> In a l -> In b l ->
  a = b \/ R a b \/ R b a.
Proof. intros. apply (ForallOrdPairs_In H a b); auto. Qed.

Lemma nodup_map_fop : forall A B (f : A -> B) (R : A -> A -> Prop) l, ForallOrdPairs R l ->
  (forall a b, In a l -> In b l -> R a b -> f a <> f b) -> NoDup (map f l).
Proof.
  intros A B f R l H. induction H as [|a l F P IH]; simpl; intros HR; constructor.
  - rewrite in_map_iff. intros [b [E I]]. rewrite Forall_forall in F. apply (HR a b); auto.
  - apply IH. intros; apply HR; auto.
Qed.

Lemma batch_allph : forall P L rem tab g1 g2 g3, pcl P -> NoDup L -> wfg g1 -> allph P g1 -> tabL L tab ->
  add_edge_table tab g1 = Ok g2 -> remove_vertices rem g2 = Ok g3 -> allph P g3.
Proof.
  intros P L rem tab g1 g2 g3 PC ND W A T E1 E2.
  assert (W2 : wfg g2) by exact (proj1 (add_edge_table_effect L tab g1 g2 ND W (tabL_ok _ _ T) E1)).
  eapply allph_removed; [exact (remove_vertices_spec rem g2 g3 W2 E2)|].
  eapply allph_add_edge_table; [exact (proj1 PC)|exact ND|exact W|exact (tabL_ok _ _ T)|exact E1|exact A].
Qed.

Lemma remove_edges_spec : forall es g g', wfg g -> (forall s t, In (s,t) es -> s <> t) ->
  remove_edges es g = Ok g' ->
  wfg g' /\ same_frame g g' /\ gphase g' = gphase g /\ gscalar g' = gscalar g /\
  forall u v, edge_type g' u v = if existsb (fun e => pair_hit (fst e) (snd e) u v) es then None else edge_type g u v.
Proof.
  unfold remove_edges. induction es as [|[s t] es IH]; intros g g' W N H; cbn [foldM] in H.
  - injection H as <-. split; [auto|]. split; [apply same_frame_refl|]. auto.
  - inv_bind H. destruct (remove_edge_spec s t g a W (N s t (or_introl eq_refl)) E) as (A1 & A2 & A3 & A4 & _ & _ & _ & A5).
    destruct (IH a g') as (B1 & B2 & B3 & B4 & B5); auto.
    { intros; apply N; simpl; auto. }
    split; [auto|]. split; [eapply same_frame_trans; eauto|]. split; [congruence|]. split; [congruence|].
    intros u v. rewrite B5, A5. cbn [existsb fst snd]. destruct (pair_hit s t u v); simpl; [destruct (existsb _ es); reflexivity|reflexivity].
Qed.
Lemma pair_hit_true : forall s t u v, pair_hit s t u v = true -> (u = s /\ v = t) \/ (u = t /\ v = s).
Proof.
  intros s t u v H. unfold pair_hit in H.
  destruct (Nat.eqb_spec u t), (Nat.eqb_spec v s), (Nat.eqb_spec u s), (Nat.eqb_spec v t); simpl in H; try discriminate; auto.
Qed.

(** Replace the summed vertices A by the kept part kp of A. *)
Lemma batch_sound2 : forall g A rem kp g1 tab reme g2 g2' g3, zxok g -> NoDup A ->
  Permutation A (rem ++ kp) ->
  (forall v, In v A -> In v (vertices g) /\ isB g v = false) ->
  wfg g1 -> same_frame g g1 -> gadj g1 = gadj g -> allph in02 g1 -> tabL (keep rem g) tab ->
  (forall s t, In (s,t) reme -> s <> t /\ (In s rem \/ In t rem)) ->
  (forall x, sumv A (integL (A ++ keep A g) g) x = sumv kp (fun y => integL (kp ++ keep A g) g1 y * tabw g tab y) x) ->
  add_edge_table tab g1 = Ok g2 -> remove_edges reme g2 = Ok g2' -> remove_vertices rem g2' = Ok g3 -> step_ok g g3.
Proof.
  intros g A rem kp g1 tab reme g2 g2' g3 ZX ND PA HA W1 F1 A1 P1 T HE H E2 E2' E3.
  assert (W := zx_wf g ZX).
  assert (NR : NoDup (rem ++ kp)) by (eapply Permutation_NoDup; eauto).
  destruct (nodup_app_inv _ _ _ NR) as [NR1 [NR2 NR3]].
  assert (IA : forall v, In v A <-> In v rem \/ In v kp).
  { intros v. rewrite <- in_app_iff. split; apply Permutation_in; [|apply Permutation_sym]; auto. }
  assert (EF := add_edge_table_effect (keep rem g) tab g1 g2 (keep_nd rem g W) W1 (tabL_ok _ _ T) E2).
  destruct EF as [W2 [F2 [NE [NP I2]]]].
  destruct (remove_edges_spec reme g2 g2' W2 (fun s t Hst => proj1 (HE s t Hst)) E2') as (W2' & F2' & Ph2 & S2 & ET2).
  assert (R := remove_vertices_spec rem g2' g3 W2' E3).
  assert (F12 : same_frame g g2) by (eapply same_frame_trans; eauto).
  assert (F12' : same_frame g g2') by (eapply same_frame_trans; eauto).
  assert (AP2 : allph in02 g2).
  { eapply allph_add_edge_table; [exact in02_closed|exact (keep_nd rem g W)|exact W1|exact (tabL_ok _ _ T)|exact E2|exact P1]. }
  assert (ZX2 : zxok g2').
  { apply (frame_zxok g); auto.
    - intros v. rewrite ET2. destruct (existsb _ reme); auto. rewrite NE by auto. unfold edge_type. rewrite A1. apply (zx_noloop g ZX).
    - apply (allph_frame in02 g2 g2'); auto. }
  destruct (removed_zxok rem g2' g3 ZX2 R) as [ZX3 [I3 O3]].
  { intros v Hv. rewrite (same_frame_isB g g2'); auto. apply HA. apply IA; auto. }
  split; auto. assert (F0 := F12'). destruct F0 as (Fv & Ft & Fi & Fo & _).
  split; [congruence|]. split; [congruence|].
  assert (V3 : vertices g3 = keep rem g).
  { rewrite (rm_vs _ _ _ R). unfold keep. rewrite Fv. reflexivity. }
  assert (PK : Permutation (keep rem g) (kp ++ keep A g)).
  { apply nodup_same_perm.
    - apply keep_nd; auto.
    - apply nodup_app; auto; [apply keep_nd; auto|]. intros v Hv Hk. apply in_keep in Hk. apply Hk. apply IA; auto.
    - intros v. rewrite in_app_iff, !in_keep, IA. split.
      + intros [X Y]. destruct (in_dec Nat.eq_dec v kp); tauto.
      + intros [X|[X Y]]; [|tauto]. split; [apply HA, IA; auto|]. intros Z. apply (NR3 v); auto. }
  assert (KB : forall v, ~ In v rem -> isB g3 v = isB g v).
  { intros v Hv. unfold isB. rewrite (rm_ty _ _ _ R); auto. rewrite (same_frame_vty g g2'); auto. }
  apply (sem_regroup g g3 A kp (keep A g)); auto.
  - apply (rm_wf _ _ _ R).
  - apply vertices_split; auto. intros; apply HA; auto.
  - rewrite V3. exact PK.
  - intros; apply HA; auto.
  - intros v Hv. rewrite KB; [apply HA, IA; auto|]. intros Z. apply (NR3 v); auto.
  - intros v Hv. apply KB. apply in_keep in Hv. rewrite IA in Hv. tauto.
  - intros x. rewrite H. apply sumv_ext. intros y.
    assert (PK' := Permutation_sym PK).
    rewrite (integL_perm g1 _ _ y W1 PK'), (integL_perm g3 _ _ y (rm_wf _ _ _ R) PK').
    rewrite (integL_removed rem g2' g3 (keep rem g) y R).
    2:{ intros u Hu. apply in_keep in Hu. tauto. }
    rewrite (integL_ext g2 g2').
    + rewrite I2, (tabw_frame g g1); auto.
    + auto.
    + intros v Hv. split; [apply same_frame_vty; auto|]. unfold phase. rewrite Ph2. reflexivity.
    + intros u v Hu Hv. rewrite ET2. apply in_keep in Hu, Hv.
      destruct (existsb _ reme) eqn:X; auto. apply existsb_exists in X. destruct X as [[s t] [X1 X2]].
      destruct (HE s t X1) as [_ Y]. apply pair_hit_true in X2. simpl in X2.
      destruct X2 as [[-> ->]|[-> ->]]; tauto.
Qed.

Lemma batch_allph2 : forall P L rem tab reme g1 g2 g2' g3, pcl P -> NoDup L -> wfg g1 -> allph P g1 -> tabL L tab ->
  (forall s t, In (s,t) reme -> s <> t) ->
  add_edge_table tab g1 = Ok g2 -> remove_edges reme g2 = Ok g2' -> remove_vertices rem g2' = Ok g3 -> allph P g3.
Proof.
  intros P L rem tab reme g1 g2 g2' g3 PC ND W A T HE E1 E2 E3.
  assert (W2 : wfg g2) by exact (proj1 (add_edge_table_effect L tab g1 g2 ND W (tabL_ok _ _ T) E1)).
  destruct (remove_edges_spec reme g2 g2' W2 HE E2) as (W2' & F2' & Ph2 & _).
  eapply allph_removed; [exact (remove_vertices_spec rem g2' g3 W2' E3)|].
  apply (allph_frame P g2 g2'); auto.
  eapply allph_add_edge_table; [exact (proj1 PC)|exact ND|exact W|exact (tabL_ok _ _ T)|exact E1|exact A].
Qed.
