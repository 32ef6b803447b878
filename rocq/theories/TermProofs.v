(** Termination of the simplification loops (every schedule). *)
From Coq Require Import Reals ZArith QArith Qcanon List Bool Arith Lia Permutation.
From Verif Require Import CNum Base ScalarModel ScalarProofs GraphModel GraphSem SumLemmas GraphProofs GraphOps StoreProofs
  RulesModel RuleLemmas SpiderProofs IsoProofs IdProofs LcompProofs PivotProofs GrowProofs PivotMatch
  SimpModel ColorProofs SimpProofs RuleShape PairProofs.
Import ListNotations.
Open Scope nat_scope.

Lemma loop_halts_measure : forall A (body : A -> proc (A * bool)) (I : graph -> Prop) (m : graph -> nat),
  (forall a g, I g -> halts (body a) g) ->
  (forall a g a' g', I g -> run (body a) g (Ok ((a', true), g')) -> I g' /\ m g' < m g) ->
  forall a g, I g -> loop_halts body a g.
Proof.
  intros A body I m HH HD. assert (X : forall n a g, m g < n -> I g -> loop_halts body a g).
  { induction n; intros a g L HI; [lia|]. constructor; auto. intros a1 g1 R. destruct (HD _ _ _ _ HI R). apply IHn; auto. lia. }
  intros a g. apply (X (S (m g))). lia.
Qed.

(** ** Every application of a rewrite removes a vertex *)
Lemma frame_vertices : forall g g', same_frame g g' -> vertices g' = vertices g.
Proof. intros g g' F. apply F. Qed.
Lemma add_edge_vertices : forall s t e g g', wfg g -> add_edge s t e g = Ok g' -> wfg g' /\ vertices g' = vertices g.
Proof.
  intros s t e g g' W H. split; [eapply add_edge_wfg; eauto|].
  destruct (Nat.eq_dec s t) as [->|D]; [|apply frame_vertices; eapply add_edge_spec; eauto].
  unfold add_edge in H. destruct (dget t (gadj g)) as [ds|] eqn:Es; [|discriminate].
  destruct (dget t ds) as [et1|] eqn:Et.
  - inv_bind H. inv_bind H. destruct (_ && _); [|discriminate].
    destruct (if Bool.eqb _ _ then _ else _) as [fuse hopf].
    destruct (_ && _); [injection H as <-; auto|]. destruct (_ || _).
    + inv_bind H. injection H as <-. destruct (set_edge_type_spec _ _ _ _ _ W E1) as [W1 [F1 _]]. apply F1.
    + destruct (_ && _); [|discriminate]. inv_bind H. exfalso. eapply remove_edge_ss; eauto.
  - apply (set_edge_type_spec _ _ _ _ _ (wfg_nedges _ _ W)) in H. destruct H as [_ [F _]]. apply F.
Qed.
Lemma add_edge_table_vertices : forall tab g g', wfg g -> add_edge_table tab g = Ok g' -> wfg g' /\ vertices g' = vertices g.
Proof.
  intros tab g g' W H. unfold add_edge_table in H.
  eapply (foldM_inv _ _ _ (fun h => wfg h /\ vertices h = vertices g)); [split; [exact W|reflexivity]| |exact H].
  intros g0 [[s t] [ns nh]] g1 [W0 V0] _ E. inv_bind E.
  assert (IV : forall n e h h', wfg h /\ vertices h = vertices g -> iterM n (add_edge s t e) h = Ok h' -> wfg h' /\ vertices h' = vertices g).
  { intros n e h h' HI HE. eapply (iterM_inv _ _ (fun h => wfg h /\ vertices h = vertices g)); [exact HI| |exact HE].
    intros k k' [K1 K2] KE. destruct (add_edge_vertices _ _ _ _ _ K1 KE). split; auto. congruence. }
  eapply IV; [eapply IV; [|exact E0]|exact E]; auto.
Qed.
Lemma remove_edges_vertices : forall es g g', wfg g -> remove_edges es g = Ok g' -> wfg g' /\ vertices g' = vertices g.
Proof.
  intros es g g' W H. unfold remove_edges in H.
  eapply (foldM_inv _ _ _ (fun h => wfg h /\ vertices h = vertices g)); [split; [exact W|reflexivity]| |exact H].
  intros g0 [s t] g1 [W0 V0] _ E. destruct (Nat.eq_dec s t) as [->|D]; [exfalso; eapply remove_edge_ss; eauto|].
  destruct (remove_edge_spec _ _ _ _ W0 D E) as [W1 [F1 _]]. split; auto. rewrite (frame_vertices _ _ F1). auto.
Qed.
Lemma filter_len : forall A (f : A -> bool) l, length (filter f l) <= length l.
Proof. induction l; simpl; auto. destruct (f a); simpl; lia. Qed.
Lemma filter_len_lt : forall A (f : A -> bool) l a, In a l -> f a = false -> length (filter f l) < length l.
Proof.
  induction l as [|a l IHl]; intros b H E; [destruct H|]. simpl. destruct H as [<-|H]; [rewrite E; assert (X := filter_len _ f l); lia|].
  specialize (IHl b H E). destruct (f a); simpl; lia.
Qed.
Lemma removed_len : forall vs g g', removed vs g g' -> length (vertices g') <= length (vertices g) /\
  (vs <> [] -> length (vertices g') < length (vertices g)).
Proof.
  intros vs g g' R. rewrite (rm_vs _ _ _ R). split; [apply filter_len|]. destruct vs as [|v vs]; [congruence|]. intros _.
  apply (filter_len_lt _ _ _ v); [apply (rm_in _ _ _ R); simpl; auto|].
  unfold mem. simpl. rewrite Nat.eqb_refl. reflexivity.
Qed.
Lemma isolated_fold_frame : forall vs st st', foldM isolated_step vs st = Ok st' -> wfg (snd st) ->
  wfg (snd st') /\ vertices (snd st') = vertices (snd st).
Proof.
  intros vs st st' H W. eapply (foldM_inv _ _ _ (fun s => wfg (snd s) /\ vertices (snd s) = vertices (snd st))); [split; [exact W|reflexivity]| |exact H].
  intros [r0 g0] v [r1 g2] [W0 V0] _ E0. cbn [snd] in *. unfold isolated_step in E0. inv_bind E0.
  repeat match goal with
      | H : Ok _ = Ok _ |- _ => injection H as <- <-
      | H : Err _ = Ok _ |- _ => discriminate H
      | H : context [match ?l with [] => _ | _ => _ end] |- _ => destruct l
      | H : bind _ _ = Ok _ |- _ => inv_bind H
      | H : (if ?b then _ else _) = Ok _ |- _ => destruct b
      | H : context [match ?t with BOUNDARY => _ | ZSP => _ | XSP => _ | HBOX => _ end] |- _ => destruct t
      end; split; auto using on_scalar_wfg.
Qed.
Lemma remove_isolated_len : forall g g', wfg g -> remove_isolated_vertices g = Ok g' -> length (vertices g') <= length (vertices g).
Proof.
  intros g g' W H. unfold remove_isolated_vertices in H. inv_bind H. destruct a as [rem g1].
  destruct (isolated_fold_frame _ _ _ E W) as [W1 V1]. cbn [snd] in *.
  assert (R := remove_vertices_spec _ _ _ W1 H). destruct (removed_len _ _ _ R). congruence.
Qed.
Lemma apply_rw_len : forall o g', wfg (rw_graph o) -> apply_rw o = Ok g' -> length (vertices g') <= length (vertices (rw_graph o)) /\
  (rw_verts o <> [] -> length (vertices g') < length (vertices (rw_graph o))).
Proof.
  intros o g' W H. unfold apply_rw in H. inv_bind H. inv_bind H. inv_bind H.
  destruct (add_edge_table_vertices _ _ _ W E) as [W1 V1]. destruct (remove_edges_vertices _ _ _ W1 E0) as [W2 V2].
  assert (R := remove_vertices_spec _ _ _ W2 E1). destruct (removed_len _ _ _ R) as [L1 L2].
  assert (L3 : length (vertices g') <= length (vertices a1)).
  { destruct (rw_check o); [|injection H as <-; auto]. apply remove_isolated_len; auto. apply R. }
  rewrite V2, V1 in L1, L2. split; [lia|]. intros X. specialize (L2 X). lia.
Qed.

Lemma add_phases_wfg : forall vs a g, wfg g -> (forall v, In v vs -> In v (vertices g)) -> wfg (add_phases vs a g) /\ vertices (add_phases vs a g) = vertices g.
Proof.
  induction vs as [|v vs IH]; intros a g W H; [auto|]. unfold add_phases. cbn [fold_left].
  destruct (IH a (add_to_phase v a g)) as [W1 V1].
  - apply add_to_phase_wfg; auto. apply H; simpl; auto.
  - intros u Hu. apply H; simpl; auto.
  - split; auto.
Qed.

(** ** Loops whose rounds shrink the diagram *)
Definition vlen (g : graph) : nat := length (vertices g).
Section Shrink.
  Context {Ch M : Type} (okc : graph -> Ch -> Prop) (mt : Ch -> graph -> res (list M * graph)) (rw : Ch -> list M -> graph -> res rwout).
  Variables (I : graph -> Prop) (m : graph -> nat).
  Hypothesis once : forall c g b g', I g -> okc g c -> simp_once (mt c) (rw c) g = Ok (b, g') ->
    I g' /\ (if b then m g' < m g else g' = g).

  Lemma simp_halts : forall g, I g -> halts (simp okc mt rw) g.
  Proof.
    intros g HI. apply (loop_halts_measure _ _ I m); auto.
    - intros a g0 _. split; [exact Logic.I|]. intros; exact Logic.I.
    - intros a g0 a' g1 H0 [[e [_ E]]|[b [g2 [[c [Oc E]] R]]]]; [discriminate|].
      injection R as E1 E2 E3. subst b g2. apply (once c g0 true g1); auto.
  Qed.
  (** the result of the loop: nothing happened and no match was found, or the
      measure decreased; either way the matcher finds nothing in the result *)
  Lemma simp_result : forall g n g', I g -> run (simp okc mt rw) g (Ok (n, g')) ->
    I g' /\ ((n = 0 /\ g' = g) \/ (n > 0 /\ m g' < m g)) /\ exists c, okc g' c /\ mt c g' = Ok ([], g').
  Proof.
    intros g n g' HI R. simpl in R.
    assert (X : forall a g1 r, loop_run (fun i => do b <- pchoose okc (fun c => simp_once (mt c) (rw c)) ;;
                  pret (if b then i + 1 else i, b)) a g1 r -> forall n g', r = Ok (n, g') -> I g1 ->
      I g' /\ ((n = a /\ g' = g1) \/ (n > a /\ m g' < m g1)) /\ exists c, okc g' c /\ mt c g' = Ok ([], g')).
    { clear - once. induction 1 as [a g1 e R|a g1 a' g' R|a g1 a1 g2 r R L IH]; intros n' g'' E HI.
      - discriminate.
      - injection E as <- <-. destruct R as [[e [_ E]]|[b [g2 [[c [Oc E]] R]]]]; [discriminate|].
        injection R as E1 E2 E3. subst b g2. destruct (once c g1 false g' HI Oc (eq_sym E)) as [I1 ->]. split; auto. split; [left; auto|].
        exists c. split; auto. symmetry in E. apply simp_once_inv in E. destruct E as [ms [g2 [E [[-> [_ ->]]|[_ [X _]]]]]]; [exact E|discriminate].
      - destruct R as [[e [_ E']]|[b [g3 [[c [Oc E']] R]]]]; [discriminate|].
        injection R as E1 E2 E3. subst b g3 a1. destruct (once c g1 true g2 HI Oc (eq_sym E')) as [I1 LT].
        destruct (IH n' g'' E I1) as [I2 [D EX]]. split; auto. split; auto. right.
        destruct D as [[-> ->]|[? ?]]; split; lia. }
    apply (X 0 g (Ok (n, g'))); auto.
  Qed.
End Shrink.

Lemma shape_len : forall g rem o g', shape g rem o -> rem <> [] -> apply_rw o = Ok g' -> vlen g' < vlen g.
Proof.
  intros g rem o g' S NE H. destruct (apply_rw_len o g' (sh_wf _ _ _ S) H) as [_ L].
  unfold vlen. rewrite <- (frame_vertices _ _ (sh_fr _ _ _ S)). apply L. rewrite (sh_rem _ _ _ S). auto.
Qed.
Lemma map_nonnil : forall A B (f : A -> B) l, l <> [] -> map f l <> [].
Proof. intros A B f [|a l] H; [congruence|discriminate]. Qed.
Lemma pv_rem_nonnil : forall ms, ms <> [] -> flat_map pv_rem ms <> [].
Proof. intros [|[[v0 v1] [[|? ?] [|? ?]]] ms] H; [congruence| | | |]; discriminate. Qed.

Lemma zxi_any : forall g, zxok g -> zxi anyph g.
Proof. intros g Z. split; auto. intros v Hv. exact I. Qed.
Section Zx.
  Let GD := good_nonzero.
  Lemma spider_once : forall md c g b g', zxok g -> ok_edges md g c ->
    simp_once (fun g => Ok (match_spider_parallel c None g, g)) spider g = Ok (b, g') ->
    zxok g' /\ (if b then vlen g' < vlen g else g' = g).
  Proof.
    intros md c g b g' Z Oc H. apply simp_once_inv in H. destruct H as [ms [g1 [E H]]]. injection E as <- <-.
    destruct H as [[E [-> ->]]|[NE [-> [o [E1 E2]]]]]; [auto|].
    assert (HC : forall e, In e c -> In e (edges g)) by (intros e He; exact (cand_ok_in _ _ _ _ _ Oc He)).
    split; [destruct (spider_step nonzero anyph g c None o g') as [S _]; auto; [apply zxi_any; auto|exact (step_k_zx _ _ _ S)]|].
    destruct (spider_shape g (match_spider_parallel c None g)) as [o' [E S]]; auto.
    - intros m Hm. apply match_spider_in in Hm; tauto.
    - apply match_spider_far; auto. apply zx_wf; auto.
    - rewrite E1 in E. injection E as <-. eapply shape_len; eauto. apply map_nonnil. auto.
  Qed.
  Lemma id_once : forall md c g b g', zxok g -> ok_vertices md g c ->
    simp_once (fun g => Ok (match_ids_parallel c None g, g)) remove_ids g = Ok (b, g') ->
    zxok g' /\ (if b then vlen g' < vlen g else g' = g).
  Proof.
    intros md c g b g' Z Oc H. apply simp_once_inv in H. destruct H as [ms [g1 [E H]]]. injection E as <- <-.
    destruct H as [[E [-> ->]]|[NE [-> [o [E1 E2]]]]]; [auto|].
    assert (HC : forall v, In v c -> In v (vertices g)) by (intros e He; exact (cand_ok_in _ _ _ _ _ Oc He)).
    assert (ND := cand_ok_nd _ _ _ _ Oc (wf_nd g (zx_wf g Z))).
    split; [destruct (ids_step nonzero anyph g c None o g') as [S _]; auto; [apply zxi_any; auto|exact (step_k_zx _ _ _ S)]|].
    destruct (ids_shape g (match_ids_parallel c None g)) as [o' [E S]]; auto.
    - intros m Hm. apply match_ids_in in Hm; tauto.
    - apply match_ids_far; auto.
    - rewrite E1 in E. injection E as <-. eapply shape_len; eauto. apply map_nonnil. auto.
  Qed.
  Lemma lcomp_once : forall md c g b g', zxok g -> ok_vertices md g c ->
    simp_once (fun g => Ok (match_lcomp_parallel c None g, g)) lcomp g = Ok (b, g') ->
    zxok g' /\ (if b then vlen g' < vlen g else g' = g).
  Proof.
    intros md c g b g' Z Oc H. apply simp_once_inv in H. destruct H as [ms [g1 [E H]]]. injection E as <- <-.
    destruct H as [[E [-> ->]]|[NE [-> [o [E1 E2]]]]]; [auto|].
    assert (HC : forall v, In v c -> In v (vertices g)) by (intros e He; exact (cand_ok_in _ _ _ _ _ Oc He)).
    assert (ND := cand_ok_nd _ _ _ _ Oc (wf_nd g (zx_wf g Z))).
    split; [destruct (lcomp_step nonzero anyph g c None o g') as [S _]; auto; [apply zxi_any; auto|exact (step_k_zx _ _ _ S)]|].
    destruct (lcomp_shape g (match_lcomp_parallel c None g)) as [o' [E S]]; auto.
    - intros m Hm. apply match_lcomp_in in Hm; tauto.
    - apply match_lcomp_far; auto.
    - rewrite E1 in E. injection E as <-. eapply shape_len; eauto. apply map_nonnil. auto.
  Qed.
  Lemma pivot_once : forall md c g b g', zxok g -> ok_edges_so md g c ->
    simp_once (fun g => Ok (match_pivot_parallel (fst c) None g, g)) (pivot (snd c)) g = Ok (b, g') ->
    zxok g' /\ (if b then vlen g' < vlen g else g' = g).
  Proof.
    intros md [c so] g b g' Z [Oc SO] H. cbn [fst snd] in *. apply simp_once_inv in H. destruct H as [ms [g1 [E H]]]. injection E as <- <-.
    destruct H as [[E [-> ->]]|[NE [-> [o [E1 E2]]]]]; [auto|].
    assert (HC : forall v, In v c -> In v (edges g)) by (intros e He; exact (cand_ok_in _ _ _ _ _ Oc He)).
    split; [destruct (pivot_step so nonzero anyph g c None o g') as [S _]; auto; [apply zxi_any; auto|exact (step_k_zx _ _ _ S)]|].
    destruct (pivot_shape so g (match_pivot_parallel c None g)) as [o' [E [S _]]]; auto.
    - intros m Hm. apply match_pivot_in in Hm; try tauto; [apply zx_wf|apply zx_noloop]; auto.
    - apply match_pivot_far; auto; [apply zx_wf|apply zx_noloop]; auto.
    - rewrite E1 in E. injection E as <-. eapply shape_len; eauto. apply pv_rem_nonnil. auto.
  Qed.

  Theorem spider_simp_halts : forall md g, zxok g -> halts (spider_simp md) g.
  Proof. intros md. apply (simp_halts _ _ _ zxok vlen). exact (spider_once md). Qed.
  Theorem id_simp_halts : forall md g, zxok g -> halts (id_simp md) g.
  Proof. intros md. apply (simp_halts _ _ _ zxok vlen). exact (id_once md). Qed.
  Theorem lcomp_simp_halts : forall md g, zxok g -> halts (lcomp_simp md) g.
  Proof. intros md. apply (simp_halts _ _ _ zxok vlen). exact (lcomp_once md). Qed.
  Theorem pivot_simp_halts : forall md g, zxok g -> halts (pivot_simp md) g.
  Proof. intros md. apply (simp_halts _ _ _ zxok vlen). exact (pivot_once md). Qed.

  Definition spider_result md := simp_result _ _ _ zxok vlen (spider_once md).
  Definition id_result md := simp_result _ _ _ zxok vlen (id_once md).
  Definition lcomp_result md := simp_result _ _ _ zxok vlen (lcomp_once md).
  Definition pivot_result md := simp_result _ _ _ zxok vlen (pivot_once md).

  Lemma to_gh_run : forall g u g', zxok g -> run p_to_gh g (Ok (u, g')) -> zxok g' /\ vertices g' = vertices g /\ forall v, In v (vertices g') -> vty g' v <> XSP.
  Proof.
    intros g u g' Z H. simpl in H. destruct (to_gh_sound g Z) as [g1 [E [Z1 [SM [NX [VS PH]]]]]].
    rewrite E in H. injection H as -> ->. auto.
  Qed.
  (** one round of interior_clifford_simp *)
  Definition icl_body (md : mode) (i : nat) : proc (nat * bool) :=
    do i1 <- id_simp md ;;
    do i2 <- spider_simp md ;;
    do i3 <- pivot_simp md ;;
    do i4 <- lcomp_simp md ;;
    if Nat.eqb (i1 + i2 + i3 + i4) 0 then pret (i, false) else pret (i + 1, true).
  Lemma bind_run : forall A B (p : proc A) (k : A -> proc B) g b g', run (pbind p k) g (Ok (b, g')) ->
    exists a g1, run p g (Ok (a, g1)) /\ run (k a) g1 (Ok (b, g')).
  Proof. intros A B p k g b g' [[e [_ E]]|[a [g1 [R1 R2]]]]; [discriminate|eauto]. Qed.
  Lemma icl_body_run : forall md i g i' b g', zxok g -> run (icl_body md i) g (Ok ((i', b), g')) ->
    zxok g' /\ (if b then vlen g' < vlen g else
      g' = g /\ (exists c, ok_vertices md g c /\ match_ids_parallel c None g = []) /\
      (exists c, ok_edges md g c /\ match_spider_parallel c None g = []) /\
      (exists c so, ok_edges_so md g (c, so) /\ match_pivot_parallel c None g = []) /\
      (exists c, ok_vertices md g c /\ match_lcomp_parallel c None g = [])).
  Proof.
    intros md i g i' b g' Z R.
    apply bind_run in R. destruct R as [i1 [g1 [R1 R]]]. destruct (id_result md _ _ _ Z R1) as [Z1 [D1 [c1 [O1 M1]]]].
    apply bind_run in R. destruct R as [i2 [g2 [R2 R]]]. destruct (spider_result md _ _ _ Z1 R2) as [Z2 [D2 [c2 [O2 M2]]]].
    apply bind_run in R. destruct R as [i3 [g3 [R3 R]]]. destruct (pivot_result md _ _ _ Z2 R3) as [Z3 [D3 [c3 [O3 M3]]]].
    apply bind_run in R. destruct R as [i4 [g4 [R4 R]]]. destruct (lcomp_result md _ _ _ Z3 R4) as [Z4 [D4 [c4 [O4 M4]]]].
    destruct (Nat.eqb_spec (i1 + i2 + i3 + i4) 0) as [E|E]; injection R as -> -> ->; split; auto.
    - destruct D4 as [[? ?]|[? _]]; [subst|lia]. destruct D3 as [[? ?]|[? _]]; [subst|lia].
      destruct D2 as [[? ?]|[? _]]; [subst|lia]. destruct D1 as [[? ?]|[? _]]; [subst|lia].
      split; auto. split; [exists c1; split; auto; congruence|]. split; [exists c2; split; auto; congruence|].
      split; [|exists c4; split; auto; congruence]. destruct c3 as [c3 so]. exists c3, so. split; auto. cbn [fst] in M3. congruence.
    - assert (L : forall n x y (a c : graph), (n = x /\ c = a \/ n > y /\ vlen c < vlen a) -> vlen c <= vlen a) by (intros n x y a c [[_ ->]|[_ ?]]; lia).
      assert (L1 := L _ _ _ _ _ D1). assert (L2 := L _ _ _ _ _ D2). assert (L3 := L _ _ _ _ _ D3). assert (L4 := L _ _ _ _ _ D4).
      destruct D1 as [[? _]|[_ ?]]; [|lia]. destruct D2 as [[? _]|[_ ?]]; [|lia]. destruct D3 as [[? _]|[_ ?]]; [|lia].
      destruct D4 as [[? _]|[_ ?]]; lia.
  Qed.
  Theorem interior_clifford_halts : forall md g, zxok g -> halts (interior_clifford_simp md) g.
  Proof.
    intros md g Z. split; [apply spider_simp_halts; auto|]. intros a g1 R1. destruct (spider_result md _ _ _ Z R1) as [Z1 _].
    split; [exact I|]. intros u g2 R2. destruct (to_gh_run _ _ _ Z1 R2) as [Z2 _].
    apply (loop_halts_measure _ _ zxok vlen); auto.
    - intros i h Zh. split; [apply id_simp_halts; auto|]. intros i1 h1 Q1. destruct (id_result md _ _ _ Zh Q1) as [Zh1 _].
      split; [apply spider_simp_halts; auto|]. intros i2 h2 Q2. destruct (spider_result md _ _ _ Zh1 Q2) as [Zh2 _].
      split; [apply pivot_simp_halts; auto|]. intros i3 h3 Q3. destruct (pivot_result md _ _ _ Zh2 Q3) as [Zh3 _].
      split; [apply lcomp_simp_halts; auto|]. intros i4 h4 Q4. destruct (Nat.eqb _ 0); exact I.
    - intros i h i' h' Zh Q. exact (icl_body_run md i h i' true h' Zh Q).
  Qed.
End Zx.
