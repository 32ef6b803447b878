(** Invariants kept by the rewrites, and absence of exceptions: every boundary
    keeps exactly one neighbour, and graph-likeness survives rewrites whose edge
    table only adds Hadamard edges between Z spiders. *)
From Coq Require Import Reals ZArith QArith Qcanon List Bool Arith Lia Permutation.
From Verif Require Import CNum Base ScalarModel ScalarProofs GraphModel GraphSem SumLemmas GraphProofs GraphOps StoreProofs
  RulesModel RuleLemmas SpiderProofs IsoProofs IdProofs LcompProofs PivotProofs GrowProofs PivotMatch GadgetProofs
  SimpModel ColorProofs SimpProofs PairProofs RuleShape.
Import ListNotations.
Open Scope nat_scope.

(** every boundary vertex has exactly one neighbour *)
Definition bdeg (g : graph) : Prop :=
  forall b, In b (vertices g) -> vty g b = BOUNDARY -> exists u, forall w, edge_type g b w <> None <-> w = u.

(** ** An edge table is a sequence of single edges to add *)
Notation unit_edge := (nat * nat * etype)%type (only parsing).
Definition units (tab : etab) : list unit_edge :=
  flat_map (fun e : edge * (nat * nat) => let '((s, t), (ns, nh)) := e in repeat (s, t, SIMPLE) ns ++ repeat (s, t, HADAMARD) nh) tab.
Definition add_u (g : graph) (u : unit_edge) : res graph := let '(s, t, et) := u in add_edge s t et g.

Lemma foldM_app : forall A B (f : A -> B -> res A) l1 l2 a, foldM f (l1 ++ l2) a = bind (foldM f l1 a) (foldM f l2).
Proof. induction l1 as [|b l1 IH]; intros l2 a; simpl; auto. destruct (f a b); simpl; auto. Qed.
Lemma foldM_repeat : forall s t et n g, foldM add_u (repeat (s, t, et) n) g = iterM n (add_edge s t et) g.
Proof. induction n; intros g; simpl; auto. destruct (add_edge s t et g); simpl; auto. Qed.
Lemma table_units : forall tab g, add_edge_table tab g = foldM add_u (units tab) g.
Proof.
  unfold add_edge_table. induction tab as [|[[s t] [ns nh]] tab IH]; intros g; [reflexivity|].
  unfold units. cbn [foldM flat_map]. rewrite !foldM_app, !foldM_repeat.
  destruct (iterM ns (add_edge s t SIMPLE) g) as [g1|e]; cbn [bind]; [|reflexivity]. rewrite foldM_repeat.
  destruct (iterM nh (add_edge s t HADAMARD) g1) as [g2|e]; cbn [bind]; [apply IH|reflexivity].
Qed.

Definition hit (b : nat) (u : unit_edge) : bool := let '(s, t, _) := u in Nat.eqb s b || Nat.eqb t b.
Definition touch (b : nat) (us : list unit_edge) : nat := length (filter (hit b) us).
Lemma touch_app : forall b l1 l2, touch b (l1 ++ l2) = touch b l1 + touch b l2.
Proof. intros. unfold touch. rewrite filter_app, app_length. reflexivity. Qed.
Lemma touch_cons : forall b u l, touch b (u :: l) = (if hit b u then 1 else 0) + touch b l.
Proof. intros. unfold touch. simpl. destruct (hit b u); reflexivity. Qed.
Lemma touch_repeat : forall b s t et n, touch b (repeat (s, t, et) n) = if Nat.eqb s b || Nat.eqb t b then n else 0.
Proof. induction n; simpl; [destruct (_ || _); auto|]. rewrite touch_cons, IHn. cbn [hit]. destruct (_ || _); lia. Qed.
Lemma touch_0 : forall b us u, touch b us = 0 -> In u us -> hit b u = false.
Proof.
  intros b us u H Hu. destruct (hit b u) eqn:E; auto. exfalso.
  assert (In u (filter (hit b) us)) by (apply filter_In; auto). unfold touch in H. destruct (filter (hit b) us); [contradiction|discriminate].
Qed.

Definition ttouch (b : nat) (tab : etab) : nat := touch b (units tab).
Definition ehit (b : nat) (e : edge) : bool := Nat.eqb (fst e) b || Nat.eqb (snd e) b.
Lemma ttouch_cons : forall b e c tab, ttouch b ((e, c) :: tab) = (if ehit b e then fst c + snd c else 0) + ttouch b tab.
Proof.
  intros b [s t] [ns nh] tab. unfold ttouch, units. cbn [flat_map]. rewrite !touch_app, !touch_repeat. unfold ehit. cbn [fst snd].
  destruct (_ || _); lia.
Qed.
Lemma ttouch_set : forall b e c tab,
  ttouch b (etab_set e c tab) + (if ehit b e then fst (cnt e tab) + snd (cnt e tab) else 0)
  = ttouch b tab + (if ehit b e then fst c + snd c else 0).
Proof.
  intros b e c tab. induction tab as [|[f d] tab IH].
  - unfold cnt. cbn [etab_set etab_get]. rewrite ttouch_cons. destruct (ehit b e); cbn [fst snd]; lia.
  - unfold cnt in *. cbn [etab_set etab_get]. destruct (ekeq e f) eqn:K.
    + apply ekeq_eq in K. subst f. rewrite !ttouch_cons. destruct (ehit b e); lia.
    + rewrite !ttouch_cons. destruct (ehit b f); lia.
Qed.
Lemma ttouch_add : forall b e et tab, ttouch b (etab_add e et tab) = ttouch b tab + (if ehit b e then 1 else 0).
Proof.
  intros b e et tab. rewrite etab_add_set. assert (H := ttouch_set b e (inc et (cnt e tab)) tab).
  destruct (ehit b e); [|lia]. destruct (cnt e tab) as [x y]. unfold inc in *; destruct et; cbn [fst snd] in *; lia.
Qed.
Lemma ttouch_set_other : forall b e c tab, ehit b e = false -> ttouch b (etab_set e c tab) = ttouch b tab.
Proof. intros b e c tab H. assert (X := ttouch_set b e c tab). rewrite H in X. lia. Qed.
Lemma ttouch_had_other : forall b e tab, ehit b e = false -> ttouch b (etab_had e tab) = ttouch b tab.
Proof. intros b e tab H. unfold etab_had. apply ttouch_set_other; auto. Qed.
Lemma ehit_false : forall b e, ehit b e = false <-> fst e <> b /\ snd e <> b.
Proof. intros b e. unfold ehit. rewrite orb_false_iff, !Nat.eqb_neq. tauto. Qed.

Lemma cnt_tail : forall e f d tab, ekeq e f = false -> cnt e ((f, d) :: tab) = cnt e tab.
Proof. intros. unfold cnt. cbn [etab_get]. rewrite H. reflexivity. Qed.
Lemma units_cnt : forall tab s t et, tab_nd tab -> In (s, t, et) (units tab) ->
  (match et with SIMPLE => fst (cnt (s, t) tab) | HADAMARD => snd (cnt (s, t) tab) end) > 0.
Proof.
  unfold tab_nd. induction tab as [|[[a b] [ns nh]] tab IH]; intros s t et ND H; [destruct H|].
  inversion ND; subst. unfold units in H. cbn [flat_map] in H. rewrite !in_app_iff in H. destruct H as [[H|H]|H].
  - assert (X := repeat_spec _ _ _ H). injection X as -> -> ->. unfold cnt. cbn [etab_get]. replace (ekeq (a, b) (a, b)) with true by (symmetry; apply ekeq_eq; auto).
    destruct ns; [destruct H|cbn [fst]; lia].
  - assert (X := repeat_spec _ _ _ H). injection X as -> -> ->. unfold cnt. cbn [etab_get]. replace (ekeq (a, b) (a, b)) with true by (symmetry; apply ekeq_eq; auto).
    destruct nh; [destruct H|cbn [snd]; lia].
  - assert (X := IH s t et H3 H). destruct (ekeq (s, t) (a, b)) eqn:K; [|rewrite cnt_tail; auto]. exfalso.
    apply ekeq_eq in K. injection K as -> ->. apply H2.
    unfold units in H. apply in_flat_map in H. destruct H as [[[s1 t1] [n1 h1]] [I1 I2]].
    apply in_app_iff in I2. destruct I2 as [I2|I2]; apply repeat_spec in I2; injection I2 as -> -> ->; apply in_map_iff; exists ((s1, t1), (n1, h1)); auto.
Qed.
Lemma units_tabL : forall L tab s t et, tabL L tab -> In (s, t, et) (units tab) -> s <> t /\ In s L /\ In t L.
Proof.
  intros L tab s t et [ND HT] H. assert (X := units_cnt tab s t et ND H). destruct (HT s t) as [E|E]; auto.
  rewrite E in X. destruct et; cbn [fst snd] in X; lia.
Qed.

(** ** The new type of an added edge *)
Lemma add_edge_new : forall s t et g g', wfg g -> s <> t -> edge_type g s t = None -> add_edge s t et g = Ok g' -> edge_type g' s t = Some et.
Proof.
  intros s t et g g' W D N H. unfold add_edge in H. destruct (dget s (gadj g)) as [ds|] eqn:Es; [|discriminate].
  rewrite (edge_none_dget g s t ds Es) in N. rewrite N in H.
  destruct (set_edge_type_spec _ _ _ _ _ (wfg_nedges _ _ W) H) as [_ [_ [_ [_ [_ [_ X]]]]]]. rewrite X, pair_hit_st. reflexivity.
Qed.
Lemma add_edge_zz : forall s t g g', wfg g -> s <> t -> vty g s = ZSP -> vty g t = ZSP -> edge_type g s t = Some HADAMARD ->
  add_edge s t HADAMARD g = Ok g' -> edge_type g' s t = None.
Proof.
  intros s t g g' W D Ts Tt N H. unfold add_edge in H. destruct (dget s (gadj g)) as [ds|] eqn:Es; [|discriminate].
  assert (N' := N). rewrite (edge_none_dget g s t ds Es) in N. rewrite N in H.
  assert (Is : In s (vertices g)) by (apply (edge_type_in_l g s t); congruence).
  assert (It : In t (vertices g)) by (apply (edge_type_in_l g t s); rewrite (wf_sym g W); congruence).
  rewrite !vtype_r_ok in H by auto.
  cbn [bind] in H. rewrite Ts, Tt in H. cbn in H. inv_bind H. injection H as <-.
  destruct (remove_edge_spec _ _ _ _ W D E) as [_ [_ [_ [_ [_ [_ [_ X]]]]]]]. unfold edge_type in X. unfold edge_type, on_scalar. cbn [gadj with_scalar].
  rewrite X, pair_hit_st. reflexivity.
Qed.

(** ** Adding the edges of a table raises nothing *)
(** graph-like as far as the vertices of L are concerned *)
Definition glikeL (L : list nat) (g : graph) : Prop :=
  (forall v, In v (vertices g) -> vty g v = ZSP \/ vty g v = BOUNDARY) /\
  forall u v e, In u L -> In v L -> edge_type g u v = Some e -> vty g u = ZSP -> vty g v = ZSP -> e = HADAMARD.
Lemma glike_L : forall L g, glike g -> glikeL L g.
Proof. intros L g [H1 H2]. split; auto. intros u v e _ _. apply H2. Qed.
Definition zzh (g : graph) (us : list unit_edge) : Prop := forall s t et, In (s, t, et) us -> vty g s = ZSP -> vty g t = ZSP -> et = HADAMARD.
Lemma add_units : forall us L g, wfg g -> zx_types g ->
  (forall s t et, In (s, t, et) us -> s <> t /\ In s L /\ In t L) -> (forall v, In v L -> In v (vertices g)) ->
  (forall b, In b (vertices g) -> vty g b = BOUNDARY -> touch b us = 0 \/ (touch b us = 1 /\ forall w, In w L -> edge_type g b w = None)) ->
  exists g1, foldM add_u us g = Ok g1 /\ wfg g1 /\ same_frame g g1 /\
    (forall u v, ~ In u L \/ ~ In v L -> edge_type g1 u v = edge_type g u v) /\
    (forall u w, touch u us = 0 -> edge_type g1 u w = edge_type g u w) /\
    (forall b, In b (vertices g) -> vty g b = BOUNDARY -> touch b us = 1 ->
       exists w, In w L /\ (exists et, In (b, w, et) us \/ In (w, b, et) us) /\ edge_type g1 b w <> None /\
         forall w', w' <> w -> edge_type g1 b w' = edge_type g b w') /\
    (noloop g -> noloop g1) /\
    (glikeL L g -> zzh g us -> glikeL L g1).
Proof.
  induction us as [|[[s t] et] us IH]; intros L g W ZT HU HL HB.
  - exists g. split; [reflexivity|]. split; auto. split; [apply same_frame_refl|]. split; auto. split; auto. split; [|auto].
    intros b _ _ X. discriminate X.
  - destruct (HU s t et (or_introl eq_refl)) as [D [Is It]].
    assert (NB : edge_type g s t = None \/ (vertex_is_zx (vty g s) = true /\ vertex_is_zx (vty g t) = true)).
    { assert (ZX : forall v, In v L -> (v = s \/ v = t) -> vertex_is_zx (vty g v) = true \/ edge_type g s t = None).
      { intros v Hv Hst. assert (V := HL v Hv). specialize (HB v V). specialize (ZT v V).
        destruct (vty g v) eqn:T; auto; try congruence.
        right. destruct (HB eq_refl) as [Z|[_ Z]].
        - exfalso. assert (X := touch_0 _ _ _ Z (or_introl eq_refl)). cbn [hit] in X. apply orb_false_iff in X.
          rewrite !Nat.eqb_neq in X. intuition.
        - destruct Hst as [-> | ->]; [apply Z; auto|rewrite (wf_sym g W); apply Z; auto]. }
      destruct (ZX s Is (or_introl eq_refl)); auto. destruct (ZX t It (or_intror eq_refl)); auto. }
    destruct (add_edge_ok s t et g W D (HL s Is) (HL t It) NB) as [g1 E1].
    destruct (add_edge_spec _ _ _ _ _ W D E1) as [W1 [F1 [_ [_ [ET _]]]]].
    assert (VT : forall v, vty g1 v = vty g v) by (intros; apply same_frame_vty; auto).
    assert (VV : vertices g1 = vertices g) by apply F1.
    assert (EO : forall b w, b <> s -> b <> t -> edge_type g1 b w = edge_type g b w) by (intros b w X Y; apply ET; congruence).
    destruct (IH L g1 W1) as [g2 [E2 [W2 [F2 [P1 [P2 [P3 [P5 P4]]]]]]]]; auto.
    { intros v Hv. rewrite VT. apply ZT. congruence. }
    { intros a b e H. apply (HU a b e). right; auto. }
    { intros v Hv. rewrite VV. auto. }
    { intros b Hb Tb. rewrite VV in Hb. rewrite VT in Tb. destruct (HB b Hb Tb) as [Z|[Z1 Z2]].
      - left. rewrite touch_cons in Z. lia.
      - rewrite touch_cons in Z1. destruct (hit b (s, t, et)) eqn:HT; [left; lia|]. right. split; [lia|].
        intros w Hw. cbn [hit] in HT. apply orb_false_iff in HT. rewrite !Nat.eqb_neq in HT. rewrite EO; auto; intuition. }
    assert (H0 : forall u, touch u ((s, t, et) :: us) = 0 -> touch u us = 0 /\ u <> s /\ u <> t).
    { intros u Z. rewrite touch_cons in Z. destruct (hit u (s, t, et)) eqn:HT; [lia|].
      cbn [hit] in HT. apply orb_false_iff in HT. rewrite !Nat.eqb_neq in HT. intuition. }
    exists g2. cbn [foldM add_u]. rewrite E1. cbn [bind]. split; auto. split; auto. split; [eapply same_frame_trans; eauto|].
    split; [|split; [|split; [|split]]].
    + intros u v Huv. rewrite P1 by auto. apply ET; intros X; injection X as -> ->; tauto.
    + intros u w Z. apply H0 in Z. destruct Z as [Z1 [Z2 Z3]]. rewrite P2, EO; auto.
    + intros b Hb Tb Z. rewrite touch_cons in Z. destruct (hit b (s, t, et)) eqn:HT.
      * assert (Z0 : touch b us = 0) by lia.
        assert (X : b = s \/ b = t) by (cbn [hit] in HT; apply orb_true_iff in HT; rewrite !Nat.eqb_eq in HT; intuition).
        assert (N : edge_type g s t = None).
        { destruct NB as [N|[N1 N2]]; auto. exfalso. destruct X as [-> | ->]; rewrite Tb in *; discriminate. }
        assert (Y := add_edge_new s t et g g1 W D N E1). destruct X as [-> | ->].
        -- exists t. split; auto. split; [exists et; left; left; auto|]. rewrite P2, Y by auto. split; [discriminate|]. intros w' Hw. rewrite P2 by auto. apply ET; congruence.
        -- exists s. split; auto. split; [exists et; right; left; auto|]. rewrite P2 by auto. rewrite (wf_sym g1 W1), Y. split; [discriminate|].
           intros w' Hw. rewrite P2 by auto. apply ET; congruence.
      * assert (Z0 : touch b us = 1) by lia. destruct (P3 b) as [w [Q1 [[et' Q0] [Q2 Q3]]]]; try congruence; auto.
        cbn [hit] in HT. apply orb_false_iff in HT. rewrite !Nat.eqb_neq in HT.
        exists w. split; auto. split; [exists et'; simpl; tauto|]. split; auto. intros w' Hw. rewrite Q3, EO; auto; intuition.
    + intros NL. apply P5. intros v. destruct (Nat.eq_dec v s) as [->|Xs]; [|rewrite ET; [apply NL|congruence|]].
      * rewrite ET; [apply NL|congruence|congruence].
      * intros X. injection X as -> X. congruence.
    + intros GL ZZ. apply P4.
      * destruct GL as [G1 G2]. split; [intros v Hv; rewrite VT; apply G1; congruence|].
        intros u v e Lu Lv Ee Tu Tv. rewrite VT in Tu, Tv.
        assert (CS : (u = s /\ v = t \/ u = t /\ v = s) \/ edge_type g1 u v = edge_type g u v).
        { destruct (Nat.eq_dec u s), (Nat.eq_dec v t), (Nat.eq_dec u t), (Nat.eq_dec v s); subst; try tauto; right; apply ET; congruence. }
        destruct CS as [CS|CS]; [|rewrite CS in Ee; apply (G2 u v e); auto].
        assert (Ee' : edge_type g1 s t = Some e) by (destruct CS as [[-> ->]|[-> ->]]; auto; rewrite (wf_sym g1 W1); auto).
        assert (Ts : vty g s = ZSP /\ vty g t = ZSP) by (destruct CS as [[-> ->]|[-> ->]]; auto). destruct Ts as [Ts Tt].
        assert (et = HADAMARD) by (apply (ZZ s t et); auto; left; auto). subst et.
        destruct (edge_type g s t) as [e0|] eqn:E0.
        -- assert (e0 = HADAMARD) by (apply (G2 s t); auto). subst e0.
           rewrite (add_edge_zz s t g g1) in Ee'; auto. discriminate.
        -- rewrite (add_edge_new s t HADAMARD g g1) in Ee'; auto. congruence.
      * intros a b e H Ta Tb. rewrite VT in Ta, Tb. apply (ZZ a b e); auto. right; auto.
Qed.

(** ** Removing edges raises nothing *)
Lemma remove_edges_ok : forall es g, wfg g -> NoDup es -> (forall s t, In (s, t) es -> s < t /\ edge_type g s t <> None) ->
  exists g', remove_edges es g = Ok g'.
Proof.
  unfold remove_edges. induction es as [|[s t] es IH]; intros g W ND H; [eexists; reflexivity|].
  inversion ND; subst. destruct (H s t (or_introl eq_refl)) as [L E]. destruct (edge_type g s t) as [e|] eqn:Ee; [|congruence].
  assert (D : s <> t) by lia.
  destruct (remove_edge_ok s t g e W D Ee) as [g1 E1]. destruct (remove_edge_spec _ _ _ _ W D E1) as [W1 [_ [_ [_ [_ [_ [_ X]]]]]]].
  cbn [foldM]. rewrite E1. cbn [bind]. apply IH; auto.
  intros a b Hab. destruct (H a b (or_intror Hab)) as [L2 E2]. split; auto. rewrite X.
  destruct (pair_hit s t a b) eqn:P; auto. apply pair_hit_true in P. destruct P as [[-> ->]|[-> ->]]; [contradiction|lia].
Qed.

(** ** remove_isolated_vertices raises nothing *)
Lemma isolated_total : forall g vs rem g1, zxok g -> bdeg g -> (exists s, g1 = with_scalar s g) -> (forall v, In v vs -> In v (vertices g)) ->
  exists st, foldM isolated_step vs (rem, g1) = Ok st.
Proof.
  intros g vs. induction vs as [|v vs IH]; intros rem g1 Z B [s Es] HV; [eexists; reflexivity|].
  assert (W := zx_wf g Z). assert (Iv := HV v (or_introl eq_refl)).
  assert (ST : exists rem' s', isolated_step (rem, g1) v = Ok (rem', with_scalar s' g)).
  { subst g1. unfold isolated_step.
    assert (N1 : forall u, In u (vertices g) -> neighbors_r (with_scalar s g) u = Ok (neighbors g u)) by (intros u Hu; exact (neighbors_r_ok g u Hu)).
    assert (T1 : forall u, In u (vertices g) -> vtype_r (with_scalar s g) u = Ok (vty g u)) by (intros u Hu; exact (vtype_r_ok g u W Hu)).
    assert (P1 : forall u, phase (with_scalar s g) u = phase g u) by reflexivity.
    assert (X1 : forall f, on_scalar f (with_scalar s g) = with_scalar (f s) g) by reflexivity.
    rewrite N1 by auto. cbn [bind]. destruct (neighbors g v) as [|w [|w' l]] eqn:Nv.
    - rewrite T1 by auto. cbn [bind]. destruct (vty g v) eqn:T; rewrite ?X1; eauto.
      exfalso. destruct (B v Iv T) as [u Hu]. assert (X := proj2 (Hu u) eq_refl). apply neighbors_spec in X. rewrite Nv in X. destruct X.
    - destruct (existsb (Nat.eqb v) rem); [eauto|]. rewrite T1 by auto. cbn [bind].
      destruct (vtype_eqb (vty g v) BOUNDARY); [eauto|].
      assert (Ew : edge_type g v w <> None) by (apply neighbors_spec; rewrite Nv; simpl; auto).
      assert (Iw : In w (vertices g)) by (apply (edge_type_in_l g w v); rewrite (wf_sym g W); auto).
      rewrite N1 by auto. cbn [bind]. destruct (Nat.ltb 1 (length (neighbors g w))); [eauto|].
      rewrite T1 by auto. cbn [bind]. destruct (vtype_eqb (vty g w) BOUNDARY); [eauto|].
      change (edge_type (with_scalar s g) v w) with (edge_type g v w).
      destruct (edge_type g v w) as [e|]; [|congruence]. cbn [of_opt bind]. rewrite X1. eauto.
    - eauto. }
  destruct ST as [rem' [s' E]]. cbn [foldM]. rewrite E. cbn [bind]. apply IH; auto; [exists s'; auto|].
  intros u Hu. apply HV; simpl; auto.
Qed.
(** it removes only closed groups of spiders *)
Theorem isolated_ok : forall g, zxok g -> bdeg g -> exists g' rem s, remove_isolated_vertices g = Ok g' /\ removed rem (with_scalar s g) g' /\
  (forall v, In v rem -> vty g v <> BOUNDARY) /\ (forall u w, In u rem -> edge_type g u w <> None -> In w rem).
Proof.
  intros g Z B. destruct (isolated_total g (vertices g) [] g Z B) as [[rem g1] E]; [exists (gscalar g); destruct g; reflexivity|auto|].
  assert (W := zx_wf g Z).
  assert (INV : iso_inv nonzero g [] rem g1).
  { apply (isolated_fold nonzero g Z (proj1 good_nonzero) (iso_good nonzero anyph g good_nonzero Z (fun _ _ => I)) (vertices g) [] g); auto.
    - apply wf_nd; auto.
    - exists [], (gscalar g), C1. repeat split; try (constructor; fail); try (simpl; tauto).
      + destruct g; reflexivity.
      + apply good_nonzero.
      + simpl. ring. }
  destruct INV as [grp [s1 [k [R1 [G1 [ND [CP [HV _]]]]]]]].
  assert (W1 : wfg g1) by (subst g1; destruct W; constructor; auto).
  destruct (remove_vertices_ok rem g1 W1) as [g' E']; auto.
  { subst g1. exact (zx_noloop g Z). }
  { intros v Hv. subst g1. apply HV; auto. }
  exists g', rem, s1. split; [unfold remove_isolated_vertices; rewrite E; exact E'|].
  split; [rewrite <- G1; apply remove_vertices_spec; auto|]. split.
  - intros v Hv. apply HV in Hv. destruct Hv as [_ Hv]. unfold isB in Hv. intros X. rewrite X in Hv. discriminate.
  - intros u w Hu Ew. rewrite R1 in *. apply (iso_closed g grp u w); auto.
Qed.

Lemma removed_glike : forall rem g g', removed rem g g' -> glike g -> glike g'.
Proof.
  intros rem g g' R [G1 G2]. split.
  - intros v Hv. rewrite (rm_vs _ _ _ R) in Hv. apply filter_In in Hv. destruct Hv as [Hv M]. rewrite negb_true_iff, mem_false in M.
    rewrite (rm_ty _ _ _ R) by auto. auto.
  - intros u v e E Tu Tv. rewrite (rm_edge _ _ _ R) in E. destruct (mem u rem || mem v rem) eqn:M; [discriminate|].
    apply orb_false_iff in M. rewrite !mem_false in M. rewrite (rm_ty _ _ _ R) in Tu, Tv by tauto. eapply G2; eauto.
Qed.
Lemma closed_bdeg : forall rem g g', removed rem g g' -> (forall u w, In u rem -> edge_type g u w <> None -> In w rem) -> wfg g -> bdeg g -> bdeg g'.
Proof.
  intros rem g g' R CL W B b Hb Tb. rewrite (rm_vs _ _ _ R) in Hb. apply filter_In in Hb. destruct Hb as [Hb M].
  rewrite negb_true_iff in M. rewrite (rm_ty _ _ _ R) in Tb by (apply mem_false; auto).
  destruct (B b Hb Tb) as [u Hu]. exists u. intros w. rewrite (rm_edge _ _ _ R), M. cbn [orb]. rewrite <- Hu.
  destruct (mem w rem) eqn:Mw; [|tauto]. split; [congruence|]. intros X. exfalso. apply mem_spec in Mw.
  apply mem_false in M. apply M. apply (CL w b); auto. rewrite (wf_sym g W). auto.
Qed.
Lemma glike_scalar : forall s g, glike g -> glike (with_scalar s g).
Proof. intros s g H. exact H. Qed.

(** ** Applying the outcome of a rewrite *)
Definition nadj (g : graph) (b : nat) (l : list nat) : nat := length (filter (connected g b) l).
Lemma connected_spec : forall g u v, connected g u v = true <-> edge_type g u v <> None.
Proof. intros. unfold connected. destruct (edge_type g u v); split; congruence. Qed.
Lemma nadj_one : forall g b u l, NoDup l -> (forall w, edge_type g b w <> None <-> w = u) -> nadj g b l = if mem u l then 1 else 0.
Proof.
  intros g b u l ND H. induction ND as [|a l Ha ND IH]; [reflexivity|]. unfold nadj in *. cbn [filter]. unfold mem in *. cbn [existsb].
  destruct (connected g b a) eqn:C.
  - apply connected_spec, H in C. subst a. rewrite Nat.eqb_refl. cbn [length orb]. f_equal. rewrite IH.
    destruct (existsb (Nat.eqb u) l) eqn:E; auto. exfalso. apply Ha. apply mem_spec. exact E.
  - destruct (Nat.eqb_spec u a) as [->|N]; [|exact IH]. exfalso.
    assert (X := proj2 (H a) eq_refl). apply connected_spec in X. congruence.
Qed.
Lemma nadj_0 : forall g b l, (forall v, In v l -> edge_type g b v = None) -> nadj g b l = 0.
Proof.
  intros g b l H. unfold nadj. induction l as [|a l IH]; [reflexivity|]. cbn [filter].
  destruct (connected g b a) eqn:C; [apply connected_spec in C; exfalso; apply C, H; simpl; auto|]. apply IH. intros; apply H; simpl; auto.
Qed.
Lemma nadj_app : forall g b l1 l2, nadj g b (l1 ++ l2) = nadj g b l1 + nadj g b l2.
Proof. intros. unfold nadj. rewrite filter_app, app_length. reflexivity. Qed.

(** the table moves the wire of every boundary whose neighbour disappears *)
Definition bmove (g : graph) (rem : list nat) (tab : etab) : Prop :=
  forall b, In b (vertices g) -> vty g b = BOUNDARY -> ttouch b tab = nadj g b rem.
Definition edges_in (g : graph) (es : list edge) : Prop :=
  NoDup es /\ forall s t, In (s, t) es -> s < t /\ edge_type g s t <> None.

(** where the wire of every boundary goes: to its old neighbour, or along a new edge of the table *)
Definition wired (g : graph) (rem : list nat) (tab : etab) (g' : graph) : Prop :=
  forall b u, In b (vertices g) -> vty g b = BOUNDARY -> edge_type g b u <> None ->
    if mem u rem then exists w et, (In (b, w, et) (units tab) \/ In (w, b, et) (units tab)) /\ forall w', edge_type g' b w' <> None <-> w' = w
    else forall w', edge_type g' b w' <> None <-> w' = u.
Theorem apply_total_wired : forall g rem o, zxok g -> bdeg g -> shape g rem o -> bmove g rem (rw_etab o) -> edges_in g (rw_edges o) ->
  (forall g1 g2 g3, add_edge_table (rw_etab o) (rw_graph o) = Ok g1 -> remove_edges (rw_edges o) g1 = Ok g2 ->
     remove_vertices (rw_verts o) g2 = Ok g3 -> zxok g3) ->
  exists g', apply_rw o = Ok g' /\ bdeg g' /\ wired g rem (rw_etab o) g' /\ (glikeL (keep rem g) g -> zzh g (units (rw_etab o)) -> glike g').
Proof.
  intros g rem o Z B S BM [END EIN] ZX3. assert (W := zx_wf g Z).
  set (h := rw_graph o). set (L := keep rem g).
  assert (F := sh_fr _ _ _ S). fold h in F.
  assert (ETh : forall u v, edge_type h u v = edge_type g u v) by (intros; unfold edge_type, h; rewrite (sh_adj _ _ _ S); reflexivity).
  assert (VT : forall v, vty h v = vty g v) by (intros; apply same_frame_vty; auto).
  assert (VV : vertices h = vertices g) by apply F.
  assert (UL := units_tabL L (rw_etab o)).
  assert (MV : forall b, In b (vertices g) -> vty g b = BOUNDARY -> exists u, (forall w, edge_type g b w <> None <-> w = u) /\
     touch b (units (rw_etab o)) = if mem u rem then 1 else 0).
  { intros b Hb Tb. destruct (B b Hb Tb) as [u Hu]. exists u. split; auto. rewrite <- (nadj_one g b u rem (sh_nd _ _ _ S) Hu). apply BM; auto. }
  destruct (add_units (units (rw_etab o)) L h) as [g1 [E1 [W1 [F1 [P1 [P2 [P3 [P5 P4]]]]]]]].
  { apply (sh_wf _ _ _ S). }
  { intros v Hv. rewrite VT. apply (zx_zx g Z). congruence. }
  { intros s t et H. apply (UL s t et); auto. apply (sh_tab _ _ _ S). }
  { intros v Hv. rewrite VV. apply in_keep in Hv. tauto. }
  { intros b Hb Tb. rewrite VV in Hb. rewrite VT in Tb. destruct (MV b Hb Tb) as [u [Hu ->]].
    destruct (mem u rem) eqn:M; [right|left; reflexivity]. split; auto. intros w Hw. rewrite ETh.
    destruct (edge_type g b w) eqn:E; auto. exfalso. assert (w = u) by (apply Hu; congruence). subst w.
    apply in_keep in Hw. apply mem_spec in M. tauto. }
  rewrite <- table_units in E1.
  assert (RL : forall s t, In (s, t) (rw_edges o) -> ~ In s L \/ ~ In t L).
  { intros s t H. destruct (sh_edges _ _ _ S s t H) as [_ [X|X]]; [left|right]; intros Y; apply in_keep in Y; tauto. }
  destruct (remove_edges_ok (rw_edges o) g1 W1 END) as [g2 E2].
  { intros s t H. destruct (EIN s t H) as [L1 L2]. split; auto. rewrite P1, ETh; auto. }
  destruct (remove_edges_spec (rw_edges o) g1 g2 W1) as [W2 [F2 [_ [_ T2]]]]; auto.
  { intros s t H. apply (sh_edges _ _ _ S s t H). }
  assert (NL1 : noloop g1) by (apply P5; intros v; rewrite ETh; apply (zx_noloop g Z)).
  assert (NL2 : noloop g2) by (intros v; rewrite T2; destruct (existsb _ _); auto).
  assert (V2 : vertices g2 = vertices g) by (rewrite (proj1 F2), (proj1 F1); exact VV).
  destruct (remove_vertices_ok (rw_verts o) g2 W2 NL2) as [g3 E3].
  { rewrite (sh_rem _ _ _ S). apply (sh_nd _ _ _ S). }
  { intros v Hv. rewrite (sh_rem _ _ _ S) in Hv. rewrite V2. apply (sh_in _ _ _ S v Hv). }
  assert (Z3 := ZX3 g1 g2 g3 E1 E2 E3).
  assert (R := remove_vertices_spec _ _ _ W2 E3). rewrite (sh_rem _ _ _ S) in R.
  assert (VT3 : forall v, ~ In v rem -> vty g3 v = vty g v).
  { intros v Hv. rewrite (rm_ty _ _ _ R), (same_frame_vty g1 g2), (same_frame_vty h g1) by auto. apply VT. }
  assert (ET3 : forall u v, edge_type g3 u v = if mem u rem || mem v rem then None else edge_type g1 u v).
  { intros u v. rewrite (rm_edge _ _ _ R), T2. destruct (mem u rem || mem v rem) eqn:M; auto. apply orb_false_iff in M. rewrite !mem_false in M.
    destruct (existsb (fun e => pair_hit (fst e) (snd e) u v) (rw_edges o)) eqn:X; auto. exfalso.
    apply existsb_exists in X. destruct X as [[s t] [X1 X2]]. cbn [fst snd] in X2. apply pair_hit_true in X2.
    destruct (sh_edges _ _ _ S s t X1) as [_ Y]. destruct X2 as [[-> ->]|[-> ->]]; tauto. }
  assert (B3 : bdeg g3).
  { intros b Hb Tb. rewrite (rm_vs _ _ _ R) in Hb. apply filter_In in Hb. destruct Hb as [Hb M]. rewrite negb_true_iff in M.
    rewrite V2 in Hb. rewrite VT3 in Tb by (apply mem_false; auto). destruct (MV b Hb Tb) as [u [Hu TU]].
    destruct (mem u rem) eqn:Mu.
    - destruct (P3 b) as [w [Q1 [_ [Q2 Q3]]]]; try (rewrite ?VV, ?VT; auto; fail). exists w. intros w'. rewrite ET3, M. cbn [orb].
      assert (NW : mem w rem = false) by (apply mem_false; apply in_keep in Q1; tauto).
      destruct (Nat.eq_dec w' w) as [->|D]; [rewrite NW; tauto|]. split; [|intros; congruence].
      destruct (mem w' rem) eqn:Mw'; [congruence|]. rewrite Q3, ETh by auto. intros X. apply Hu in X. congruence.
    - exists u. intros w. rewrite ET3, M. cbn [orb]. rewrite P2 by auto. rewrite ETh, <- Hu.
      destruct (mem w rem) eqn:Mw; [|tauto]. split; [congruence|]. intros X. apply Hu in X. congruence. }
  assert (B3w : wired g rem (rw_etab o) g3).
  { intros b u Hb Tb Eu. destruct (MV b Hb Tb) as [u' [Hu TU]]. assert (u = u') by (apply Hu; auto). subst u'.
    assert (M : mem b rem = false) by (apply mem_false; intros M; apply (sh_in _ _ _ S) in M; tauto).
    destruct (mem u rem) eqn:Mu.
    - destruct (P3 b) as [w [Q1 [[et Q0] [Q2 Q3]]]]; try (rewrite ?VV, ?VT; auto; fail). exists w, et. split; auto. intros w'. rewrite ET3, M. cbn [orb].
      assert (NW : mem w rem = false) by (apply mem_false; apply in_keep in Q1; tauto).
      destruct (Nat.eq_dec w' w) as [->|D]; [rewrite NW; tauto|]. split; [|intros; congruence].
      destruct (mem w' rem) eqn:Mw'; [congruence|]. rewrite Q3, ETh by auto. intros X. apply Hu in X. congruence.
    - intros w. rewrite ET3, M. cbn [orb]. rewrite P2 by auto. rewrite ETh, <- Hu.
      destruct (mem w rem) eqn:Mw; [|tauto]. split; [congruence|]. intros X. apply Hu in X. congruence. }
  assert (G3 : glikeL L g -> zzh g (units (rw_etab o)) -> glike g3).
  { intros [G1 G2] ZH. destruct P4 as [Q1 Q2].
    - split; [intros v Hv; rewrite VT; apply G1; congruence|]. intros u v e Lu Lv. rewrite ETh, !VT. apply G2; auto.
    - intros s t et H. rewrite !VT. apply ZH; auto.
    - split.
      + intros v Hv. rewrite (rm_vs _ _ _ R) in Hv. apply filter_In in Hv. destruct Hv as [Hv M]. rewrite negb_true_iff, mem_false in M.
        rewrite VT3 by auto. apply G1. congruence.
      + intros u v e E Tu Tv. rewrite ET3 in E. destruct (mem u rem || mem v rem) eqn:M; [discriminate|]. apply orb_false_iff in M. rewrite !mem_false in M.
        assert (IV : forall a w, edge_type g1 a w <> None -> ~ In a rem -> In a L).
        { intros a w X Y. apply in_keep. split; auto. rewrite <- VV, <- (proj1 F1). apply (edge_type_in_l g1 a w); auto. }
        apply (Q2 u v e); auto.
        * apply (IV u v); [congruence|tauto].
        * apply (IV v u); [rewrite (wf_sym g1 W1); congruence|tauto].
        * rewrite (same_frame_vty h g1), VT by auto; rewrite <- VT3; tauto.
        * rewrite (same_frame_vty h g1), VT by auto; rewrite <- VT3; tauto. }
  unfold apply_rw. fold h. rewrite E1. cbn [bind]. rewrite E2. cbn [bind]. rewrite E3. cbn [bind].
  destruct (rw_check o); [|exists g3; auto].
  destruct (isolated_ok g3 Z3 B3) as [g4 [rem4 [s4 [E4 [R4 [N4 C4]]]]]]. exists g4. split; auto. split; [|split].
  - apply (closed_bdeg rem4 (with_scalar s4 g3)); auto; try exact (on_scalar_wfg (fun _ => s4) g3 (rm_wf _ _ _ R)).
  - intros b u Hb Tb Eu. assert (X := B3w b u Hb Tb Eu).
    assert (Mb : ~ In b rem) by (intros M; apply (sh_in _ _ _ S) in M; tauto).
    assert (K : forall w', edge_type g4 b w' <> None <-> edge_type g3 b w' <> None).
    { intros w'. rewrite (rm_edge _ _ _ R4). change (edge_type (with_scalar s4 g3) b w') with (edge_type g3 b w').
      assert (M4 : ~ In b rem4) by (intros Y; apply N4 in Y; rewrite VT3 in Y; auto).
      destruct (mem b rem4) eqn:M1; [apply mem_spec in M1; contradiction|]. cbn [orb].
      destruct (mem w' rem4) eqn:M2; [|tauto]. apply mem_spec in M2. split; [congruence|]. intros Y. exfalso. apply M4, (C4 w'); auto.
      rewrite (wf_sym g3 (zx_wf g3 Z3)). auto. }
    destruct (mem u rem); [destruct X as [w [et [X1 X2]]]; exists w, et; split; auto|]; intros w'; rewrite K; auto.
  - intros GL ZH. apply (removed_glike rem4 (with_scalar s4 g3)); auto; try (apply glike_scalar; auto).
Qed.
Theorem apply_total : forall g rem o, zxok g -> bdeg g -> shape g rem o -> bmove g rem (rw_etab o) -> edges_in g (rw_edges o) ->
  (forall g1 g2 g3, add_edge_table (rw_etab o) (rw_graph o) = Ok g1 -> remove_edges (rw_edges o) g1 = Ok g2 ->
     remove_vertices (rw_verts o) g2 = Ok g3 -> zxok g3) ->
  exists g', apply_rw o = Ok g' /\ bdeg g' /\ (glikeL (keep rem g) g -> zzh g (units (rw_etab o)) -> glike g').
Proof.
  intros g rem o Z B S BM EI ZX3. destruct (apply_total_wired g rem o Z B S BM EI ZX3) as [g' [A1 [A2 [_ A3]]]]. exists g'. auto.
Qed.
