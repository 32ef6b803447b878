(** Building a diagram from others: the structure and meaning of copies,
    disjoint unions and plugged diagrams. *)
From Coq Require Import Reals ZArith QArith Qcanon List Bool Arith Lia Permutation FunctionalExtensionality.
From Verif Require Import CNum Base ScalarModel ScalarProofs GraphModel GraphSem SumLemmas GraphProofs GraphOps RulesModel RuleLemmas
  SpiderProofs IsoProofs IdProofs LcompProofs PivotProofs GrowProofs StoreProofs InvProofs BfixProofs TotalProofs GrowTotal
  GateModel CircSpec GateProofs AmpProofs CircGraphModel CircGraphProofs CircGraphFacts VerifyProofs GraphAlgModel.
Import ListNotations.
Open Scope C_scope.

(** ** Parts of a diagram *)
Definition part (g : graph) (L : list nat) (x : assignment) : C :=
  cprod (fun v => pw g v (x v)) L * pprod (fun u v => ew g u v (x u) (x v)) L.
Lemma integL_part : forall L g x, integL L g x = to_number (gscalar g) * part g L x.
Proof. intros. unfold integL, part. ring. Qed.
Lemma part_app : forall g L1 L2 x, (forall u v, In u L1 -> In v L2 -> edge_type g u v = None) ->
  part g (L1 ++ L2) x = part g L1 x * part g L2 x.
Proof.
  intros g L1 L2 x H. unfold part. rewrite cprod_app, pprod_app.
  rewrite (cprod_1 _ (fun u => cprod _ L2) L1); [ring|]. intros u Hu. apply cprod_1. intros v Hv. unfold ew. rewrite H; auto.
Qed.
Lemma part_ext : forall g g' L x, (forall v, In v L -> vty g' v = vty g v /\ phase g' v = phase g v) ->
  (forall u v, In u L -> In v L -> edge_type g' u v = edge_type g u v) -> part g' L x = part g L x.
Proof.
  intros g g' L x H E. unfold part. f_equal.
  - apply cprod_ext. intros v Hv. destruct (H v Hv) as [T P]. unfold pw, isB. rewrite T, P. auto.
  - apply pprod_ext. intros u v Hu Hv. unfold ew, isX. rewrite (proj1 (H u Hu)), (proj1 (H v Hv)), E; auto.
Qed.
Lemma part_agree : forall g L x y, (forall v, In v L -> x v = y v) -> part g L x = part g L y.
Proof.
  intros g L x y H. unfold part. f_equal; [apply cprod_ext|apply pprod_ext]; intros; rewrite !H; auto.
Qed.
Lemma cprod_map' : forall (f : nat -> nat) (F : nat -> C) L, cprod F (map f L) = cprod (fun v => F (f v)) L.
Proof. induction L; simpl; auto. rewrite IHL. auto. Qed.
Lemma pprod_map' : forall (f : nat -> nat) (F : nat -> nat -> C) L, pprod F (map f L) = pprod (fun u v => F (f u) (f v)) L.
Proof. induction L; simpl; auto. rewrite IHL, cprod_map'. auto. Qed.
Lemma part_map : forall g h f L x, (forall v, In v L -> vty g (f v) = vty h v /\ cexp (phase g (f v)) = cexp (phase h v)) ->
  (forall u v, In u L -> In v L -> edge_type g (f u) (f v) = edge_type h u v) -> part g (map f L) x = part h L (fun v => x (f v)).
Proof.
  intros g h f L x H E. unfold part. rewrite cprod_map', pprod_map'. f_equal.
  - apply cprod_ext. intros v Hv. destruct (H v Hv) as [T P]. unfold pw, isB, ephase. rewrite T, P. auto.
  - apply pprod_ext. intros u v Hu Hv. unfold ew, isX. rewrite (proj1 (H u Hu)), (proj1 (H v Hv)), E; auto.
Qed.
Lemma Cconj_pprod : forall F L, Cconj (pprod F L) = pprod (fun u v => Cconj (F u v)) L.
Proof. induction L; simpl; [apply Cconj_1|]. rewrite Cconj_mult, IHL, cprod_conj. auto. Qed.
Lemma Cconj_sgn : forall b, Cconj (sgn b) = sgn b.
Proof. intros []; unfold sgn; rewrite ?Cconj_opp, Cconj_1; auto. Qed.
Lemma Cconj_dlt : forall a b, Cconj (dlt a b) = dlt a b.
Proof. intros [] []; unfold dlt; simpl; rewrite ?Cconj_1, ?Cconj_0; auto. Qed.
Lemma Cconj_wt : forall e a b, Cconj (wt e a b) = wt e a b.
Proof. intros [[]|] a b; simpl; rewrite ?Cconj_mult, ?Cconj_sq2p, ?Cconj_sgn, ?Cconj_dlt, ?Cconj_1; auto. Qed.
Lemma part_map_conj : forall g h f L x, (forall v, In v L -> vty g (f v) = vty h v /\ cexp (phase g (f v)) = Cconj (cexp (phase h v))) ->
  (forall u v, In u L -> In v L -> edge_type g (f u) (f v) = edge_type h u v) -> part g (map f L) x = Cconj (part h L (fun v => x (f v))).
Proof.
  intros g h f L x H E. unfold part. rewrite cprod_map', pprod_map', Cconj_mult, cprod_conj, Cconj_pprod. f_equal.
  - apply cprod_ext. intros v Hv. destruct (H v Hv) as [T P]. unfold pw, isB, ephase. rewrite T, P.
    destruct (vtype_eqb _ _), (x (f v)); rewrite ?Cconj_1; auto.
  - apply pprod_ext. intros u v Hu Hv. unfold ew at 2. rewrite Cconj_wt. unfold ew, isX. rewrite (proj1 (H u Hu)), (proj1 (H v Hv)), E; auto.
Qed.

(** ** Sums over renamed vertices *)
Definition respects (V : list nat) (F : assignment -> C) : Prop := forall x y, (forall v, In v V -> x v = y v) -> F x = F y.
Lemma sumv_agree : forall V F, respects V F -> forall l x y, (forall v, In v V -> ~ In v l -> x v = y v) -> sumv l F x = sumv l F y.
Proof.
  intros V F R. induction l as [|a l IH]; intros x y H; simpl.
  - apply R. intros; apply H; auto.
  - f_equal; apply IH; intros v Hv N; unfold upd; destruct (Nat.eqb_spec v a); auto; apply H; auto; simpl; intuition congruence.
Qed.
Definition inj_on (f : nat -> nat) (V : list nat) : Prop := forall u v, In u V -> In v V -> f u = f v -> u = v.
Lemma sumv_map : forall V F f, respects V F -> inj_on f V -> forall l b, incl l V ->
  sumv (map f l) (fun x => F (fun v => x (f v))) b = sumv l F (fun v => b (f v)).
Proof.
  intros V F f R I. induction l as [|a l IH]; intros b H; simpl; auto.
  rewrite !IH by (intros v Hv; apply H; simpl; auto).
  f_equal; apply (sumv_agree V); auto; intros v Hv _; unfold upd;
  destruct (Nat.eqb_spec v a); [subst; rewrite Nat.eqb_refl; auto| |subst; rewrite Nat.eqb_refl; auto|];
  destruct (Nat.eqb_spec (f v) (f a)) as [E|]; auto; exfalso; apply n; apply I; auto; apply H; simpl; auto.
Qed.
Lemma sumv_conj : forall l F b, Cconj (sumv l F b) = sumv l (fun x => Cconj (F x)) b.
Proof. induction l; simpl; intros; auto. rewrite Cconj_plus, !IHl. auto. Qed.
Lemma part_respects : forall g L, respects L (part g L).
Proof. intros g L x y H. apply part_agree. auto. Qed.
Lemma integL_respects : forall g L, respects L (integL L g).
Proof. intros g L x y H. rewrite !integL_part. f_equal. apply part_agree. auto. Qed.
Lemma sem_agree : forall g x y, (forall v, In v (vertices g) -> isB g v = true -> x v = y v) -> sem g x = sem g y.
Proof.
  intros g x y H. unfold sem. apply (sumv_agree (vertices g)); [apply integL_respects|]. intros v Hv N. apply H; auto.
  destruct (isB g v) eqn:B; auto. exfalso. apply N. unfold internal. apply filter_In. rewrite B. auto.
Qed.

(** ** Values as matrices: input bits [i], output bits [y] *)
Definition val (g : graph) (i y : assignment) : C := sem g (bits (ginputs g) (goutputs g) i y).
Definition io_ok (g : graph) : Prop := NoDup (ginputs g ++ goutputs g).
Lemma val_ext : forall g i y i' y', (forall j, (j < length (ginputs g))%nat -> i j = i' j) -> (forall j, (j < length (goutputs g))%nat -> y j = y' j) ->
  zinv g -> io_ok g -> val g i y = val g i' y'.
Proof.
  intros g i y i' y' Hi Hy Z N. unfold val. apply sem_agree. intros v Hv B. apply vtype_eqb_eq in B.
  destruct (zi_io _ Z v Hv B) as [I|I]; destruct (In_nth _ _ 0%nat I) as [j [J <-]].
  - rewrite !bits_in by auto. auto.
  - rewrite !bits_out by auto. auto.
Qed.
Lemma val_sem : forall g b, zinv g -> io_ok g ->
  sem g b = val g (fun j => b (nth j (ginputs g) 0%nat)) (fun j => b (nth j (goutputs g) 0%nat)).
Proof.
  intros g b Z N. unfold val. apply sem_agree. intros v Hv B. apply vtype_eqb_eq in B.
  destruct (zi_io _ Z v Hv B) as [I|I]; destruct (In_nth _ _ 0%nat I) as [j [J <-]].
  - rewrite bits_in by auto. auto.
  - rewrite bits_out by auto. auto.
Qed.

(** ** Adding the vertices of another diagram *)
Definition tf (tab : vtab) (v : nat) : nat := match dget v tab with Some w => w | None => 0%nat end.
Definition qubs_ok (g : graph) : Prop := forall v, In v (vertices g) -> dget v (gqindex g) <> None.
Record grown (g g' : graph) (w : nat) (t : vtype) (p : Qc) : Prop := mkgrown {
  gn_w : w = gvindex g; gn_wf : wfg g'; gn_v : vertices g' = vertices g ++ [w];
  gn_e : forall u v, edge_type g' u v = edge_type g u v;
  gn_t : forall u, vty g' u = if Nat.eqb u w then t else vty g u;
  gn_p : forall u, phase g' u = if Nat.eqb u w then qmod2 p else phase g u;
  gn_i : ginputs g' = ginputs g; gn_o : goutputs g' = goutputs g; gn_s : gscalar g' = gscalar g;
  gn_r : rows_ok g -> rows_ok g'; gn_q : qubs_ok g -> qubs_ok g'; gn_x : gvindex g' = S (gvindex g) }.
Record vgraft (g h : graph) (k : Qc -> Qc) (L : list nat) (f : nat -> nat) (g' : graph) : Prop := mkvgraft {
  vg_wf : wfg g'; vg_v : vertices g' = vertices g ++ map f L;
  vg_e : forall u v, edge_type g' u v = edge_type g u v;
  vg_ot : forall u, In u (vertices g) -> vty g' u = vty g u /\ phase g' u = phase g u;
  vg_nt : forall v, In v L -> vty g' (f v) = vty h v /\ phase g' (f v) = qmod2 (k (phase h v));
  vg_i : ginputs g' = ginputs g; vg_o : goutputs g' = goutputs g; vg_s : gscalar g' = gscalar g;
  vg_r : rows_ok g -> rows_ok g'; vg_q : qubs_ok g -> qubs_ok g' }.
Lemma NoDup_app_disj : forall (A : Type) (l1 l2 : list A), NoDup (l1 ++ l2) -> forall a, In a l1 -> In a l2 -> False.
Proof. induction l1 as [|b l1 IH]; simpl; intros l2 N a H1 H2; [auto|]. apply NoDup_cons_iff in N. destruct N as [N1 N2]. destruct H1 as [->|H1]; [apply N1, in_or_app; auto|eauto]. Qed.
Lemma map_nodup_inj : forall (f : nat -> nat) L, NoDup (map f L) -> inj_on f L.
Proof.
  intros f. induction L as [|a L IH]; intros N u v Hu Hv E; [destruct Hu|]. simpl in N. apply NoDup_cons_iff in N. destruct N as [N1 N2].
  destruct Hu as [->|Hu], Hv as [->|Hv]; auto.
  - exfalso. apply N1. rewrite E. apply in_map. auto.
  - exfalso. apply N1. rewrite <- E. apply in_map. auto.
  - apply IH; auto.
Qed.
Lemma vertices_graft : forall h k L0 (stp : graph * vtab -> nat -> res (graph * vtab)),
  (forall g tab v, wfg g -> In v L0 -> exists g' w, stp (g, tab) v = Ok (g', dset v w tab) /\ grown g g' w (vty h v) (k (phase h v))) ->
  forall L g tab, wfg g -> NoDup L -> incl L L0 -> (forall v, In v L -> ~ In v (dkeys tab)) ->
  exists g' tab', foldM stp L (g, tab) = Ok (g', tab') /\ dkeys tab' = dkeys tab ++ L /\
    (forall u, ~ In u L -> dget u tab' = dget u tab) /\ (forall v, In v L -> dget v tab' = Some (tf tab' v)) /\
    map (tf tab') L = seq (gvindex g) (length L) /\ vgraft g h k L (tf tab') g'.
Proof.
  intros h k L0 stp HS. induction L as [|a L IH]; intros g tab W N I D.
  - exists g, tab. split; [reflexivity|]. split; [rewrite app_nil_r; auto|]. split; [auto|]. split; [intros v []|]. split; [reflexivity|].
    constructor; auto. rewrite app_nil_r; auto. intros v [].
  - apply NoDup_cons_iff in N. destruct N as [Na N].
    destruct (HS g tab a W) as [g1 [w [E1 G1]]]; [apply I; simpl; auto|].
    destruct (IH g1 (dset a w tab)) as [g2 [tab2 [E2 [K2 [O2 [S2 [Q2 V2]]]]]]].
    + apply G1. + auto. + intros v Hv. apply I. simpl; auto.
    + intros v Hv X. rewrite dkeys_dset_notin in X by (apply D; simpl; auto). apply in_app_or in X. destruct X as [X|[X|[]]]; [apply (D v); simpl; auto|subst; contradiction].
    + exists g2, tab2. cbn [foldM]. rewrite E1. cbn [bind]. split; [exact E2|].
      split; [rewrite K2, dkeys_dset_notin, <- app_assoc by (apply D; simpl; auto); reflexivity|].
      assert (DA : dget a tab2 = Some w) by (rewrite O2 by auto; rewrite dget_dset, Nat.eqb_refl; auto).
      assert (TA : tf tab2 a = w) by (unfold tf; rewrite DA; auto).
      split; [intros u Hu; rewrite O2, dget_dset by (intros X; apply Hu; simpl; auto); destruct (Nat.eqb_spec u a); auto; subst; destruct Hu; simpl; auto|].
      split; [intros v [<-|Hv]; [rewrite TA; auto|auto]|].
      split; [cbn [map length seq]; rewrite TA, Q2, (gn_x _ _ _ _ _ G1), (gn_w _ _ _ _ _ G1); auto|].
      assert (F := fresh_not_in g W). rewrite <- (gn_w _ _ _ _ _ G1) in F.
      assert (VV : vertices g2 = vertices g ++ map (tf tab2) (a :: L)).
      { rewrite (vg_v _ _ _ _ _ _ V2), (gn_v _ _ _ _ _ G1), <- app_assoc. simpl. rewrite TA. auto. }
      assert (W1 : In w (vertices g1)) by (rewrite (gn_v _ _ _ _ _ G1); apply in_or_app; simpl; auto).
      constructor.
      * apply V2. * exact VV.
      * intros u v. rewrite (vg_e _ _ _ _ _ _ V2). apply G1.
      * intros u Hu. destruct (vg_ot _ _ _ _ _ _ V2 u) as [-> ->]; [rewrite (gn_v _ _ _ _ _ G1); apply in_or_app; auto|].
        rewrite (gn_t _ _ _ _ _ G1), (gn_p _ _ _ _ _ G1). destruct (Nat.eqb_spec u w); auto. subst; contradiction.
      * intros v [<-|Hv]; [|apply V2; auto]. rewrite TA. destruct (vg_ot _ _ _ _ _ _ V2 w W1) as [-> ->].
        rewrite (gn_t _ _ _ _ _ G1), (gn_p _ _ _ _ _ G1), Nat.eqb_refl. auto.
      * rewrite (vg_i _ _ _ _ _ _ V2). apply G1.
      * rewrite (vg_o _ _ _ _ _ _ V2). apply G1.
      * rewrite (vg_s _ _ _ _ _ _ V2). apply G1.
      * intros R. apply V2. apply G1. auto.
      * intros R. apply V2. apply G1. auto.
Qed.

(** ** Adding its edges *)
Lemma edges_nd : forall g, wfg g -> NoDup (edges g).
Proof.
  intros g W. unfold edges. assert (N := wf_nd g W). assert (I := wf_inner g W). unfold vertices in N. unfold inner_nd in I.
  assert (J : forall v d, In (v, d) (gadj g) -> NoDup (dkeys d)) by (intros v d H; eapply I; apply in_dget; eauto).
  clear I. induction (gadj g) as [|[v d] a IH]; simpl; [constructor|]. simpl in N. apply NoDup_cons_iff in N. destruct N as [N1 N2].
  apply RuleLemmas.nodup_app.
  - apply FinFun.Injective_map_NoDup; [intros p q E; congruence|]. apply NoDup_filter. eapply J. simpl; eauto.
  - apply IH; auto. intros; eapply J; simpl; eauto.
  - intros [p q] H1 H2. apply in_map_iff in H1. destruct H1 as [w [E _]]. injection E as <- <-.
    apply in_flat_map in H2. destruct H2 as [[v' d'] [H2 H3]]. apply in_map_iff in H3. destruct H3 as [w' [E _]]. injection E as -> _.
    apply N1. apply in_map_iff. exists (v, d'). auto.
Qed.
Lemma add_edge_fresh : forall s t et g, wfg g -> s <> t -> In s (vertices g) -> In t (vertices g) -> edge_type g s t = None ->
  exists g', add_edge s t et g = Ok g' /\ wfg g' /\ same_frame g g' /\ (forall u, phase g' u = phase g u) /\ gscalar g' = gscalar g /\
  (forall u v, edge_type g' u v = if pair_hit s t u v then Some et else edge_type g u v).
Proof.
  intros s t et g W D Is It EN. destruct (add_edge_new s t et g W D Is It EN) as [g' [E [W' [F [P [ET _]]]]]]. exists g'.
  split; auto. split; auto. split; auto. split; auto. split; auto.
  unfold add_edge in E. destruct (dget s (gadj g)) as [ds|] eqn:Es; [|discriminate].
  rewrite (edge_none_dget g s t ds Es) in EN. rewrite EN in E.
  destruct (set_edge_type_spec _ _ _ _ _ (wfg_nedges _ _ W) E) as [_ [_ [_ [S _]]]]. exact S.
Qed.
Lemma pair_hit_iff : forall s t u v, pair_hit s t u v = true <-> (u = s /\ v = t) \/ (u = t /\ v = s).
Proof.
  intros s t u v. unfold pair_hit. rewrite orb_true_iff, !andb_true_iff, !Nat.eqb_eq. tauto.
Qed.
Definition ehit (f : nat -> nat) (a b : nat) (e : nat * nat) : bool := pair_hit (f (fst e)) (f (snd e)) a b.
Lemma graft_edges_ok : forall h tab L f, (forall v, In v L -> dget v tab = Some (f v)) -> inj_on f L -> forall es g,
  wfg g -> NoDup es -> (forall u v, In (u, v) es -> (u < v)%nat /\ In u L /\ In v L /\ edge_type h u v <> None) ->
  (forall v, In v L -> In (f v) (vertices g)) -> (forall u v, In (u, v) es -> edge_type g (f u) (f v) = None) ->
  exists g', graft_edges h tab es g = Ok g' /\ wfg g' /\ same_frame g g' /\ (forall u, phase g' u = phase g u) /\ gscalar g' = gscalar g /\
   (forall a b, edge_type g' a b = match find (ehit f a b) es with Some e => edge_type h (fst e) (snd e) | None => edge_type g a b end).
Proof.
  intros h tab L f HT HI. induction es as [|[u v] es IH]; intros g W N HE HV H0.
  - exists g. split; [reflexivity|]. split; auto. split; [apply same_frame_refl|]. split; auto.
  - apply NoDup_cons_iff in N. destruct N as [N1 N2]. destruct (HE u v) as [Huv [Iu [Iv Ee]]]; [simpl; auto|].
    destruct (edge_type h u v) as [et|] eqn:Eh; [|congruence].
    assert (D : f u <> f v) by (intros X; apply HI in X; auto; lia).
    destruct (add_edge_fresh (f u) (f v) et g W D) as [g1 [E1 [W1 [F1 [P1 [S1 T1]]]]]]; auto. { apply H0. simpl; auto. }
    assert (FV := proj1 F1).
    assert (X : forall u' v', In (u', v') es -> pair_hit (f u) (f v) (f u') (f v') = false).
    { intros u' v' H. destruct (HE u' v') as [L' [Iu' [Iv' _]]]; [simpl; auto|]. apply pair_hit_false; intros E; injection E as E2 E3; apply HI in E2; apply HI in E3; auto; subst; [contradiction|lia]. }
    destruct (IH g1) as [g2 [E2 [W2 [F2 [P2 [S2 T2]]]]]]; auto.
    + intros u' v' H. apply HE. simpl; auto.
    + intros w Hw. rewrite FV. auto.
    + intros u' v' H. rewrite T1, X by auto. apply H0. simpl; auto.
    + exists g2. unfold graft_edges. cbn [foldM]. unfold graft_edge at 1. unfold vget. cbn [fst snd]. rewrite !HT by auto. cbn [of_opt bind]. rewrite Eh. cbn [of_opt bind]. rewrite E1. cbn [bind].
      split; [exact E2|]. split; auto. split; [eapply same_frame_trans; eauto|]. split; [intros; rewrite P2; auto|]. split; [congruence|].
      intros a b. rewrite T2. cbn [find]. unfold ehit at 2. cbn [fst snd]. destruct (pair_hit (f u) (f v) a b) eqn:PH.
      * destruct (find (ehit f a b) es) as [[u' v']|] eqn:Fd; [|rewrite T1, PH; cbn [fst snd]; auto].
        exfalso. apply find_some in Fd. destruct Fd as [Fi Fh]. specialize (X u' v' Fi). unfold ehit in Fh. cbn [fst snd] in Fh.
        apply pair_hit_iff in PH. apply pair_hit_iff in Fh. enough (pair_hit (f u) (f v) (f u') (f v') = true) by congruence.
        apply pair_hit_iff. destruct PH as [[]|[]], Fh as [[]|[]]; subst; auto.
      * destruct (find (ehit f a b) es) as [e|]; auto. rewrite T1, PH. auto.
Qed.
(** the edges between the chosen vertices [L] *)
Lemma graft_edges_all : forall h tab L f es g, wfg h -> noloop h -> (forall v, In v L -> dget v tab = Some (f v)) -> inj_on f L ->
  wfg g -> NoDup es -> (forall u v, In (u, v) es <-> (u < v)%nat /\ In u L /\ In v L /\ edge_type h u v <> None) ->
  (forall v, In v L -> In (f v) (vertices g)) -> (forall u v, In u L -> In v L -> edge_type g (f u) (f v) = None) ->
  exists g', graft_edges h tab es g = Ok g' /\ wfg g' /\ same_frame g g' /\ (forall u, phase g' u = phase g u) /\ gscalar g' = gscalar g /\
   (forall u v, In u L -> In v L -> edge_type g' (f u) (f v) = edge_type h u v) /\
   (forall a b, ~ In a (map f L) -> edge_type g' a b = edge_type g a b).
Proof.
  intros h tab L f es g Wh NL HT HI W N HE HV H0.
  destruct (graft_edges_ok h tab L f HT HI es g W N) as [g' [E [W' [F [P [S T]]]]]]; auto.
  - intros u v H. apply HE. auto.
  - intros u v H. apply HE in H. apply H0; apply H.
  - exists g'. do 5 (split; auto). split.
    + intros u v Iu Iv. rewrite T. destruct (find (ehit f (f u) (f v)) es) as [[u' v']|] eqn:Fd.
      * apply find_some in Fd. destruct Fd as [Fi Fh]. apply HE in Fi. destruct Fi as [_ [Iu' [Iv' _]]]. unfold ehit in Fh. cbn [fst snd] in *.
        apply pair_hit_iff in Fh. destruct Fh as [[E1 E2]|[E1 E2]]; apply HI in E1; apply HI in E2; auto; subst; auto. apply wf_sym; auto.
      * rewrite H0 by auto. destruct (edge_type h u v) eqn:Eh; auto. exfalso.
        assert (C : (u < v \/ v < u \/ u = v)%nat) by lia. destruct C as [C|[C|C]].
        -- assert (I : In (u, v) es) by (apply HE; split; auto; split; auto; split; auto; congruence).
           apply find_none with (x := (u, v)) in Fd; auto. unfold ehit in Fd. cbn [fst snd] in Fd. rewrite pair_hit_st in Fd. discriminate.
        -- assert (I : In (v, u) es) by (apply HE; rewrite wf_sym by auto; split; auto; split; auto; split; auto; congruence).
           apply find_none with (x := (v, u)) in Fd; auto. unfold ehit in Fd. cbn [fst snd] in Fd. rewrite pair_hit_sym, pair_hit_st in Fd. discriminate.
        -- subst. rewrite NL in Eh. discriminate.
    + intros a b Na. rewrite T. destruct (find (ehit f a b) es) as [[u v]|] eqn:Fd; auto. exfalso. apply find_some in Fd. destruct Fd as [Fi Fh].
      apply HE in Fi. destruct Fi as [_ [Iu [Iv _]]]. unfold ehit in Fh. apply pair_hit_iff in Fh. cbn [fst snd] in Fh.
      apply Na. destruct Fh as [[-> _]|[-> _]]; apply in_map; auto.
Qed.

(** ** A diagram placed beside another *)
Record graft (g h : graph) (k : Qc -> Qc) (L : list nat) (f : nat -> nat) (r : graph) : Prop := mkgraft {
  gf_wf : wfg r; gf_v : vertices r = vertices g ++ map f L;
  gf_ot : forall u, In u (vertices g) -> vty r u = vty g u /\ phase r u = phase g u;
  gf_oe : forall u v, In u (vertices g) -> edge_type r u v = edge_type g u v;
  gf_nt : forall v, In v L -> vty r (f v) = vty h v /\ phase r (f v) = qmod2 (k (phase h v));
  gf_ne : forall u v, In u L -> In v L -> edge_type r (f u) (f v) = edge_type h u v;
  gf_i : ginputs r = ginputs g; gf_o : goutputs r = goutputs g; gf_s : gscalar r = gscalar g;
  gf_r : rows_ok g -> rows_ok r; gf_q : qubs_ok g -> qubs_ok r }.
Lemma vgraft_io : forall g h k L f g' i o, vgraft g h k L f g' -> vgraft (set_outputs o (set_inputs i g)) h k L f (set_outputs o (set_inputs i g')).
Proof. intros g h k L f g' i o V. destruct V. constructor; auto. apply wfg_io. auto. Qed.
Lemma graft_fresh : forall g L (f : nat -> nat) r, wfg r -> vertices r = vertices g ++ map f L ->
  inj_on f L /\ (forall v, In v L -> ~ In (f v) (vertices g)) /\ (forall v, In v L -> In (f v) (vertices r)).
Proof.
  intros g L f r W V. assert (N := wf_nd r W). rewrite V in N. split; [apply map_nodup_inj; eapply NoDup_app_r; eauto|].
  split; [intros v Hv X; eapply NoDup_app_disj; eauto; apply in_map; auto|]. intros v Hv. rewrite V. apply in_or_app. right. apply in_map. auto.
Qed.
Lemma graft_all : forall g h k L g' tab es, wfg g -> wfg h -> noloop h -> vgraft g h k L (tf tab) g' -> (forall v, In v L -> dget v tab = Some (tf tab v)) ->
  NoDup es -> (forall u v, In (u, v) es <-> (u < v)%nat /\ In u L /\ In v L /\ edge_type h u v <> None) ->
  exists r, graft_edges h tab es g' = Ok r /\ graft g h k L (tf tab) r.
Proof.
  intros g h k L g' tab es W Wh NL V HT N HE. destruct (graft_fresh g L (tf tab) g' (vg_wf _ _ _ _ _ _ V) (vg_v _ _ _ _ _ _ V)) as [I [Fr Vr]].
  destruct (graft_edges_all h tab L (tf tab) es g' Wh NL HT I (vg_wf _ _ _ _ _ _ V) N HE Vr) as [r [E [W' [F [P [S [T1 T2]]]]]]].
  { intros u v Hu Hv. rewrite (vg_e _ _ _ _ _ _ V). apply edge_none_out; auto. }
  exists r. split; auto. assert (FT := fun u => same_frame_vty g' r u F). destruct F as [FV [_ [FI [FO [_ [FQ FR]]]]]]. destruct V. constructor; auto; try congruence.
  - intros u Hu. rewrite FT, P. auto.
  - intros u v Hu. rewrite T2; auto. intros X. apply in_map_iff in X. destruct X as [w [<- Hw]]. apply (Fr w); auto.
  - intros u Hu. rewrite FT, P. auto.
  - intros R u. rewrite FV, FR. apply vg_r0. auto.
  - intros R u. rewrite FV, FQ. apply vg_q0. auto.
Qed.
Lemma edges_all : forall h, wfg h -> NoDup (edges h) /\ (forall u v, In (u, v) (edges h) <-> (u < v)%nat /\ In u (vertices h) /\ In v (vertices h) /\ edge_type h u v <> None).
Proof.
  intros h W. split; [apply edges_nd; auto|]. intros u v. rewrite in_edges by auto. split; [|tauto]. intros [A B]. split; auto.
  split; [eapply edge_type_in_l; eauto|split; auto]. rewrite wf_sym in B by auto. eapply edge_type_in_l; eauto.
Qed.
Lemma graft_cross : forall g h k L f r, wfg g -> graft g h k L f r -> forall u v, In u (vertices g) -> In v (map f L) -> edge_type r u v = None.
Proof.
  intros g h k L f r W G u v Hu Hv. rewrite (gf_oe _ _ _ _ _ _ G) by auto. apply edge_none_out; auto.
  destruct (graft_fresh g L f r (gf_wf _ _ _ _ _ _ G) (gf_v _ _ _ _ _ _ G)) as [_ [Fr _]]. apply in_map_iff in Hv. destruct Hv as [w [<- Hw]]. auto.
Qed.
Lemma graft_part : forall g h L f r x, wfg g -> graft g h (fun p => p) L f r ->
  part r (vertices r) x = part g (vertices g) x * part h L (fun v => x (f v)).
Proof.
  intros g h L f r x W G. rewrite (gf_v _ _ _ _ _ _ G), part_app by (apply (graft_cross _ _ _ _ _ _ W G)). f_equal.
  - apply part_ext; [apply G|]. intros u v Hu _. apply G. auto.
  - apply part_map; [|apply G]. intros v Hv. destruct (gf_nt _ _ _ _ _ _ G v Hv) as [-> ->]. rewrite cexp_qmod2. auto.
Qed.
Lemma graft_internal : forall g h k L f r, graft g h k L f r ->
  internal r = internal g ++ map f (filter (fun v => negb (isB h v)) L).
Proof.
  intros g h k L f r G. unfold internal. rewrite (gf_v _ _ _ _ _ _ G), filter_app. f_equal.
  - apply filter_ext_in. intros u Hu. unfold isB. rewrite (proj1 (gf_ot _ _ _ _ _ _ G u Hu)). auto.
  - assert (H := gf_nt _ _ _ _ _ _ G). clear G. induction L as [|a L IH]; simpl; auto.
    assert (E : isB r (f a) = isB h a) by (unfold isB; rewrite (proj1 (H a (or_introl eq_refl))); auto). rewrite E.
    rewrite IH by (intros; apply H; simpl; auto). destruct (isB h a); auto.
Qed.
(** the value of a disjoint union *)
Lemma graft_sem : forall g h f r b, wfg g -> wfg h -> graft g h (fun p => p) (vertices h) f r ->
  sem r b = to_number (gscalar g) * sumv (internal g) (part g (vertices g)) b * sumv (internal h) (part h (vertices h)) (fun v => b (f v)).
Proof.
  intros g h f r b W Wh G. unfold sem. rewrite (graft_internal _ _ _ _ _ _ G), sumv_app. fold (internal h).
  destruct (graft_fresh g _ f r (gf_wf _ _ _ _ _ _ G) (gf_v _ _ _ _ _ _ G)) as [I [Fr _]].
  assert (IH : incl (internal h) (vertices h)) by (intros v Hv; unfold internal in Hv; apply filter_In in Hv; apply Hv).
  transitivity (sumv (internal g) (fun x => to_number (gscalar g) * sumv (internal h) (part h (vertices h)) (fun v => b (f v)) * part g (vertices g) x) b).
  - apply sumv_ext_on. intros x Hx.
    transitivity (sumv (map f (internal h)) (fun y => (to_number (gscalar g) * part g (vertices g) y) * part h (vertices h) (fun v => y (f v))) x).
    { apply sumv_ext. intros y. rewrite integL_part, (gf_s _ _ _ _ _ _ G), (graft_part _ _ _ _ _ _ W G). ring. }
    rewrite (sumv_mult_indep _ (fun y => to_number (gscalar g) * part g (vertices g) y)).
    2:{ intros y v c Hv. f_equal. apply part_agree. intros u Hu. apply upd_other. intros ->. apply in_map_iff in Hv. destruct Hv as [w [E Hw]]. subst. apply (Fr w); auto. }
    rewrite (sumv_map (vertices h)); auto; [|apply part_respects].
    rewrite (sumv_agree (vertices h) _ (part_respects _ _) _ (fun v => x (f v)) (fun v => b (f v))); [ring|].
    intros v Hv _. apply Hx. intros X. apply (Fr v Hv). unfold internal in X. apply filter_In in X. apply X.
  - rewrite sumv_scal. ring.
Qed.
Lemma graft_sem_conj : forall g h f r b, vertices g = [] -> wfg g -> wfg h -> graft g h Qcopp (vertices h) f r ->
  sem r b = to_number (gscalar g) * Cconj (sumv (internal h) (part h (vertices h)) (fun v => b (f v))).
Proof.
  intros g h f r b E0 W Wh G. unfold sem. rewrite (graft_internal _ _ _ _ _ _ G). unfold internal at 1. rewrite E0. fold (internal h). cbn [filter app].
  destruct (graft_fresh g _ f r (gf_wf _ _ _ _ _ _ G) (gf_v _ _ _ _ _ _ G)) as [I _].
  assert (IH : incl (internal h) (vertices h)) by (intros v Hv; unfold internal in Hv; apply filter_In in Hv; apply Hv).
  rewrite sumv_conj. rewrite <- (sumv_map (vertices h) (fun x => Cconj (part h (vertices h) x)) f); auto.
  2:{ intros x y H. f_equal. apply part_agree. auto. }
  rewrite <- sumv_scal. apply sumv_ext. intros x. rewrite integL_part, (gf_s _ _ _ _ _ _ G). f_equal.
  rewrite (gf_v _ _ _ _ _ _ G), E0. cbn [app]. apply part_map_conj; [|apply G]. intros v Hv. destruct (gf_nt _ _ _ _ _ _ G v Hv) as [-> ->].
  rewrite cexp_qmod2, cexp_opp. auto.
Qed.
Lemma sem_part : forall g b, sem g b = to_number (gscalar g) * sumv (internal g) (part g (vertices g)) b.
Proof. intros. unfold sem. rewrite <- sumv_scal. apply sumv_ext. intros. apply integL_part. Qed.
