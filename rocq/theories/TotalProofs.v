(** The simplifiers return normally: no exception for any schedule, on
    diagrams whose boundaries have one neighbour. *)
From Coq Require Import Reals ZArith QArith Qcanon List Bool Arith Lia Permutation.
From Verif Require Import CNum Base ScalarModel ScalarProofs GraphModel GraphSem SumLemmas GraphProofs GraphOps StoreProofs
  RulesModel RuleLemmas SpiderProofs IsoProofs IdProofs LcompProofs PivotProofs GrowProofs PivotMatch GadgetProofs
  SimpModel ColorProofs SimpProofs PairProofs RuleShape TermProofs InvProofs RoundProofs BfixProofs.
Import ListNotations.
Open Scope nat_scope.

Record zinv (g : graph) : Prop := mkzinv {
  zi_zx : zxok g; zi_deg : bdeg g; zi_ph : bphz g; zi_rows : rows_ok g; zi_io : bio g }.
Lemma zinv_bfix : forall g g', bfix g g' -> zxok g' -> bdeg g' -> ginputs g' = ginputs g -> goutputs g' = goutputs g -> zinv g -> zinv g'.
Proof. intros g g' B Z D I O H. destruct H. constructor; eauto using bfix_bphz, bfix_rows, bfix_bio. Qed.

(** every execution returns, in a state meeting J *)
Definition tot {A} (I : graph -> Prop) (p : proc A) (J : graph -> A -> graph -> Prop) : Prop :=
  forall g r, I g -> run p g r -> exists a g', r = Ok (a, g') /\ J g a g'.
Lemma tot_bind : forall A B (I : graph -> Prop) (p : proc A) (M : graph -> A -> graph -> Prop) (k : A -> proc B) J,
  tot I p M -> (forall g0 a, tot (fun g => I g0 /\ M g0 a g) (k a) (fun _ b g' => J g0 b g')) -> tot I (pbind p k) J.
Proof.
  intros A B I p M k J Hp Hk g r HI [[e [R _]]|[a [g1 [R1 R2]]]].
  - destruct (Hp _ _ HI R) as [? [? [? _]]]. discriminate.
  - destruct (Hp _ _ HI R1) as [a' [g1' [E HM]]]. injection E as <- <-. apply (Hk g a g1 r); auto.
Qed.
Lemma tot_loop : forall A (body : A -> proc (A * bool)) (Inv : A -> graph -> Prop) (J : A -> graph -> Prop),
  (forall a, tot (Inv a) (body a) (fun _ ab g' => if snd ab then Inv (fst ab) g' else J (fst ab) g')) ->
  forall a, tot (Inv a) (ploop body a) (fun _ a' g' => J a' g').
Proof.
  intros A body Inv J HB a g r HI R. simpl in R. induction R as [a g e R|a g a' g' R|a g a1 g1 r R L IH].
  - destruct (HB _ _ _ HI R) as [? [? [? _]]]. discriminate.
  - destruct (HB _ _ _ HI R) as [x [y [E H]]]. injection E as <- <-. eauto.
  - destruct (HB _ _ _ HI R) as [x [y [E H]]]. injection E as <- <-. auto.
Qed.
Section SimpTot.
  Context {Ch M : Type} (okc : graph -> Ch -> Prop) (mt : Ch -> graph -> res (list M * graph)) (rw : Ch -> list M -> graph -> res rwout).
  Variable I : graph -> Prop.
  Hypothesis once : forall c g, I g -> okc g c -> exists b g', simp_once (mt c) (rw c) g = Ok (b, g') /\ I g'.
  Lemma simp_tot : tot I (simp okc mt rw) (fun _ _ g' => I g').
  Proof.
    apply (tot_loop _ _ (fun _ => I) (fun _ => I)). intros i g r HI [[e [[c [Oc E]] ->]]|[b [g1 [[c [Oc E]] R]]]].
    - destruct (once c g HI Oc) as [b [g' [E' _]]]. congruence.
    - destruct (once c g HI Oc) as [b' [g' [E' H]]]. rewrite E' in E. injection E as -> ->. exists (if b' then i + 1 else i, b'), g'.
      split; [exact R|]. cbn [fst snd]. destruct b'; auto.
  Qed.
End SimpTot.

Definition keepb (g g' : graph) : Prop := zinv g' /\ bfix g g'.
Lemma once_case : forall M (ms : list M) rw g (I : graph -> Prop), I g ->
  (ms <> [] -> exists o g', rw ms g = Ok o /\ apply_rw o = Ok g' /\ I g') ->
  exists b g', simp_once (fun g => Ok (ms, g)) rw g = Ok (b, g') /\ I g'.
Proof.
  intros M ms rw g I HI H. unfold simp_once. cbn [bind]. destruct ms as [|m ms]; [eauto|].
  destruct H as [o [g' [E1 [E2 HG]]]]; [discriminate|]. rewrite E1. cbn [bind]. rewrite E2. cbn [bind]. eauto.
Qed.
Lemma keep_step : forall K P g o g', wfg (rw_graph o) -> bfix g (rw_graph o) -> apply_rw o = Ok g' -> bdeg g' -> zinv g -> step_k K g g' /\ allph P g' -> keepb g g'.
Proof.
  intros K P g o g' W B E D Z [[Z' [I [O _]]] _]. assert (BF : bfix g g') by (eapply bfix_trans; [exact B|apply apply_rw_bfix; auto]).
  split; auto. eapply zinv_bfix; eauto.
Qed.
Section Z.
  Let GD := good_nonzero.
  Lemma spider_tonce : forall md g c, zinv g -> ok_edges md g c ->
    exists b g', simp_once (fun g => Ok (match_spider_parallel c None g, g)) spider g = Ok (b, g') /\ keepb g g'.
  Proof.
    intros md g c Z Oc. assert (ZX := zi_zx g Z). assert (W := zx_wf g ZX).
    assert (HC : forall e, In e c -> In e (edges g)) by (intros e He; exact (cand_ok_in _ _ _ _ _ Oc He)).
    assert (HO : forall m, In m (match_spider_parallel c None g) -> spider_ok g m) by (intros m Hm; apply match_spider_in in Hm; tauto).
    assert (HF : ForallOrdPairs (far g) (match_spider_parallel c None g)) by (apply match_spider_far; auto).
    apply (once_case _ (match_spider_parallel c None g) spider g (keepb g)); [split; auto; apply bfix_refl|]. intros _.
    destruct (spider_round g _ ZX (zi_deg g Z) HO HF) as [o [g' [E1 [E2 D]]]]. exists o, g'. split; auto. split; auto.
    destruct (spider_shape g _ ZX HO HF) as [o' [E1' S]]. rewrite E1 in E1'. injection E1' as <-.
    apply (keep_step nonzero anyph g o g'); auto; [apply S|eapply spider_bfix; eauto|].
    apply (spider_step nonzero anyph g c None o g'); auto. apply zxi_any; auto.
  Qed.
  Lemma id_tonce : forall md g c, zinv g -> ok_vertices md g c ->
    exists b g', simp_once (fun g => Ok (match_ids_parallel c None g, g)) remove_ids g = Ok (b, g') /\ keepb g g'.
  Proof.
    intros md g c Z Oc. assert (ZX := zi_zx g Z). assert (W := zx_wf g ZX).
    assert (HC : forall e, In e c -> In e (vertices g)) by (intros e He; exact (cand_ok_in _ _ _ _ _ Oc He)).
    assert (ND := cand_ok_nd _ _ _ _ Oc (wf_nd g W)).
    assert (HO : forall m, In m (match_ids_parallel c None g) -> id_ok g m) by (intros m Hm; apply match_ids_in in Hm; tauto).
    assert (HF := match_ids_far g None c 0 [] HC ND).
    apply (once_case _ (match_ids_parallel c None g) remove_ids g (keepb g)); [split; auto; apply bfix_refl|]. intros _.
    destruct (ids_round g _ ZX (zi_deg g Z) HO HF) as [o [g' [E1 [E2 D]]]]. exists o, g'. split; auto. split; auto.
    destruct (ids_shape g _ ZX HO HF) as [o' [E1' S]]. rewrite E1 in E1'. injection E1' as <-.
    apply (keep_step nonzero anyph g o g'); auto; [apply S| |].
    - unfold remove_ids in E1. match type of E1 with context [fold_left ?f ?l ?i] => destruct (fold_left f l i) end. injection E1 as <-. apply bfix_refl.
    - apply (ids_step nonzero anyph g c None o g'); auto. apply zxi_any; auto.
  Qed.
  Lemma lcomp_tonce : forall md g c, zinv g -> ok_vertices md g c ->
    exists b g', simp_once (fun g => Ok (match_lcomp_parallel c None g, g)) lcomp g = Ok (b, g') /\ keepb g g' /\ (glike g -> glike g').
  Proof.
    intros md g c Z Oc. assert (ZX := zi_zx g Z). assert (W := zx_wf g ZX).
    assert (HC : forall e, In e c -> In e (vertices g)) by (intros e He; exact (cand_ok_in _ _ _ _ _ Oc He)).
    assert (ND := cand_ok_nd _ _ _ _ Oc (wf_nd g W)).
    assert (HO : forall m, In m (match_lcomp_parallel c None g) -> lc_ok g m) by (intros m Hm; apply match_lcomp_in in Hm; tauto).
    assert (HF := match_lcomp_far g None c [] HC ND).
    apply (once_case _ (match_lcomp_parallel c None g) lcomp g (fun g' => keepb g g' /\ (glike g -> glike g'))); [split; auto; split; auto; apply bfix_refl|]. intros _.
    destruct (lcomp_round g _ ZX (zi_deg g Z) HO HF) as [o [g' [E1 [E2 [D G]]]]]. exists o, g'. split; auto. split; auto. split; auto.
    destruct (lcomp_shape g _ ZX HO HF) as [o' [E1' S]]. rewrite E1 in E1'. injection E1' as <-.
    apply (keep_step nonzero anyph g o g'); auto; [apply S|eapply lcomp_bfix; eauto|].
    apply (lcomp_step nonzero anyph g c None o g'); auto. apply zxi_any; auto.
  Qed.
  Lemma pivot_tonce : forall md g c, zinv g -> ok_edges_so md g c ->
    exists b g', simp_once (fun g => Ok (match_pivot_parallel (fst c) None g, g)) (pivot (snd c)) g = Ok (b, g') /\ keepb g g'.
  Proof.
    intros md g [c so] Z [Oc SO]. cbn [fst snd] in *. assert (ZX := zi_zx g Z). assert (W := zx_wf g ZX). assert (NL := zx_noloop g ZX).
    assert (HC : forall e, In e c -> In e (edges g)) by (intros e He; exact (cand_ok_in _ _ _ _ _ Oc He)).
    assert (HO : forall m, In m (match_pivot_parallel c None g) -> pv_ok g m) by (intros m Hm; apply match_pivot_in in Hm; tauto).
    assert (HF : ForallOrdPairs (pv_far g) (match_pivot_parallel c None g)) by (apply match_pivot_far; auto).
    apply (once_case _ (match_pivot_parallel c None g) (pivot so) g (keepb g)); [split; auto; apply bfix_refl|]. intros _.
    destruct (pivot_round so g _ SO ZX (zi_deg g Z) HO HF) as [o [g' [E1 [E2 [D G]]]]]. exists o, g'. split; auto. split; auto.
    destruct (pivot_shape so g _ SO ZX HO HF) as [o' [E1' [S _]]]. rewrite E1 in E1'. injection E1' as <-.
    apply (keep_step nonzero anyph g o g'); auto; [apply S|eapply pivot_bfix; eauto|].
    apply (pivot_step so nonzero anyph g c None o g'); auto. apply zxi_any; auto.
  Qed.
  Lemma keepb_refl : forall g, zinv g -> keepb g g. Proof. intros; split; auto; apply bfix_refl. Qed.
  Lemma keepb_trans : forall a b c, keepb a b -> keepb b c -> keepb a c.
  Proof. intros a b c [_ B1] [Z B2]. split; auto. eapply bfix_trans; eauto. Qed.
  Lemma simp_tot2 : forall Ch M (okc : graph -> Ch -> Prop) (mt : Ch -> graph -> res (list M * graph)) (rw : Ch -> list M -> graph -> res rwout),
    (forall g c, zinv g -> okc g c -> exists b g', simp_once (mt c) (rw c) g = Ok (b, g') /\ keepb g g') ->
    tot zinv (simp okc mt rw) (fun g _ g' => keepb g g').
  Proof.
    intros Ch M okc mt rw L g r Z R. destruct (simp_tot okc mt rw (keepb g)) with (2 := keepb_refl g Z) (3 := R) as [a [g' [E H]]]; [|exists a, g'; auto].
    intros c h [Zh Bh] Oc. destruct (L h c Zh Oc) as [b [h' [E K]]]. exists b, h'. split; [exact E|eapply keepb_trans; [split; [exact Zh|exact Bh]|exact K]].
  Qed.
  Theorem spider_simp_tot : forall md, tot zinv (spider_simp md) (fun g _ g' => keepb g g').
  Proof. intros md. exact (simp_tot2 _ _ _ _ _ (spider_tonce md)). Qed.
  Theorem id_simp_tot : forall md, tot zinv (id_simp md) (fun g _ g' => keepb g g').
  Proof. intros md. exact (simp_tot2 _ _ _ _ _ (id_tonce md)). Qed.
  Theorem lcomp_simp_tot : forall md, tot zinv (lcomp_simp md) (fun g _ g' => keepb g g').
  Proof.
    assert (L : forall md g c, zinv g -> ok_vertices md g c ->
      exists b g', simp_once (fun g => Ok (match_lcomp_parallel c None g, g)) lcomp g = Ok (b, g') /\ keepb g g').
    { intros md g c Z Oc. destruct (lcomp_tonce md g c Z Oc) as [b [g' [E [K _]]]]. eauto. }
    intros md. exact (simp_tot2 _ _ _ _ _ (L md)).
  Qed.
  Theorem pivot_simp_tot : forall md, tot zinv (pivot_simp md) (fun g _ g' => keepb g g').
  Proof. intros md. exact (simp_tot2 _ _ _ _ _ (pivot_tonce md)). Qed.

  Lemma to_gh_tot : tot zinv p_to_gh (fun g _ g' => zinv g' /\ noX g').
  Proof.
    intros g r Z R. simpl in R. destruct (to_gh_sound g (zi_zx g Z)) as [g1 [E [Z1 [_ [NX [VS PH]]]]]].
    destruct (to_gh_ok g (zx_wf g (zi_zx g Z)) (zx_noloop g (zi_zx g Z))) as [g1' [E' RC]]. rewrite E in E'. injection E' as <-.
    rewrite E in R. cbn [bind] in R. exists tt, g1. split; auto. split; auto.
    assert (TB : forall v, vty g1 v = BOUNDARY -> vty g v = BOUNDARY).
    { intros v H. rewrite (rc_ty _ _ _ RC) in H. destruct (iXv g v) eqn:X; auto. apply iXv_zx in X. destruct (vty g v); discriminate. }
    destruct Z as [ZX D P RW IO]. constructor; auto.
    - intros b Hb T. rewrite VS in Hb. destruct (D b Hb (TB b T)) as [u Hu]. exists u. intros w. rewrite <- Hu, (rc_et _ _ _ RC). destruct (edge_type g b w); cbn; split; congruence.
    - intros b Hb T. unfold phase. rewrite PH. apply P; auto. congruence.
    - intros v Hv. rewrite (rc_ri _ _ _ RC). apply RW. congruence.
    - intros b Hb T. rewrite (rc_in _ _ _ RC), (rc_out _ _ _ RC). apply IO; auto. congruence.
  Qed.
End Z.

(** ** what is left when the matchers find nothing *)
Lemma match_spider_nil : forall g cands i, match_spider_loop g None i cands [] = [] ->
  forall v0 v1, In (v0, v1) cands -> v0 <> v1 -> edge_type g v0 v1 = Some SIMPLE -> vty g v0 = ZSP -> vty g v1 = ZSP -> False.
Proof.
  intros g cands. induction cands as [|e cands IH]; intros i H v0 v1 HI D E T0 T1; [destruct HI|].
  cbn [match_spider_loop] in H. cbn [lim_reached emem existsb] in H. destruct HI as [->|HI].
  - cbn [fst snd] in H. rewrite E in H. destruct (Nat.eqb_spec v0 v1); [contradiction|]. rewrite T0, T1 in H. discriminate.
  - destruct (edge_type g (fst e) (snd e)) as [[|]|]; try (eapply IH; eauto; fail). destruct e as [a b].
    destruct (Nat.eqb a b); [eapply IH; eauto|]. match type of H with (if ?x then _ else _) = _ => destruct x end; [discriminate|eapply IH; eauto].
Qed.
Lemma pivot_scan_all : forall g v ns, (forall n, In n ns -> vty g n = ZSP /\ edge_type g v n = Some HADAMARD) -> pivot_scan g v ns = Some [].
Proof.
  intros g v ns. induction ns as [|n ns IH]; intros H; [reflexivity|]. cbn [pivot_scan]. destruct (H n (or_introl eq_refl)) as [-> ->]. cbn. apply IH. intros; apply H; right; auto.
Qed.
Lemma match_pivot_nil : forall g cands i, match_pivot_loop g None i cands [] = [] ->
  forall v0 v1, In (v0, v1) cands -> edge_type g v0 v1 = Some HADAMARD -> vty g v0 = ZSP -> vty g v1 = ZSP ->
  is_pauli (phase g v0) = true -> is_pauli (phase g v1) = true ->
  pivot_scan g v0 (neighbors g v0) = Some [] -> pivot_scan g v1 (neighbors g v1) = Some [] -> False.
Proof.
  intros g cands. induction cands as [|[a b] cands IH]; intros i H v0 v1 HI E T0 T1 P0 P1 S0 S1; [destruct HI|].
  cbn [match_pivot_loop] in H. cbn [lim_reached emem existsb] in H. destruct HI as [X|HI].
  - injection X as -> ->. rewrite E, T0, T1, P0, P1, S0, S1 in H. discriminate.
  - repeat (first [discriminate H | match type of H with context [match ?x with _ => _ end] => destruct x end | (eapply IH; eauto; fail)]).
Qed.

(** adjacent interior Pauli spiders: one of them is a leaf *)
Definition psep (g : graph) : Prop := forall n n', vty g n = ZSP -> vty g n' = ZSP -> is_pauli (phase g n) = true -> is_pauli (phase g n') = true ->
  interior g n -> interior g n' -> edge_type g n n' <> None -> length (neighbors g n) = 1 \/ length (neighbors g n') = 1.
Lemma glike_of_nil : forall g c, wfg g -> noloop g -> zx_types g -> noX g -> Permutation c (edges g) -> match_spider_parallel c None g = [] -> glike g.
Proof.
  intros g c W NL ZT NX PC H. split.
  - intros v Hv. assert (X := NX v Hv). assert (Y := ZT v Hv). destruct (vty g v); auto; congruence.
  - intros u v e E Tu Tv. destruct e; auto. exfalso. assert (D : u <> v) by (intros ->; rewrite NL in E; discriminate).
    assert (X : forall a b, a < b -> edge_type g a b = Some SIMPLE -> vty g a = ZSP -> vty g b = ZSP -> False).
    { intros a b L Eab Ta Tb. eapply (match_spider_nil g c 0 H a b); auto; [|lia]. eapply Permutation_in; [apply Permutation_sym; exact PC|]. apply in_edges; auto. split; auto. congruence. }
    destruct (Nat.lt_total u v) as [L|[L|L]]; [apply (X u v)|contradiction|apply (X v u)]; auto. rewrite (wf_sym g W); auto.
Qed.
Lemma psep_of_nil : forall g c, wfg g -> noloop g -> glike g -> Permutation c (edges g) -> match_pivot_parallel c None g = [] -> psep g.
Proof.
  intros g c W NL [G1 G2] PC H n n' T T' P P' In_ In' E. exfalso.
  assert (SC : forall a, vty g a = ZSP -> interior g a -> pivot_scan g a (neighbors g a) = Some []).
  { intros a Ta Ia. apply pivot_scan_all. intros u Hu. assert (Zu : vty g u = ZSP).
    { destruct (G1 u) as [|X]; auto; [apply (neighbors_in g a); auto|]. apply Ia in Hu. unfold isB in Hu. rewrite X in Hu. discriminate. }
    split; auto. apply neighbors_spec in Hu. destruct (edge_type g a u) as [e|] eqn:Eu; [|congruence]. f_equal. apply (G2 a u); auto. }
  assert (HE : edge_type g n n' = Some HADAMARD).
  { destruct (edge_type g n n') as [e|] eqn:Ee; [|congruence]. f_equal. apply (G2 n n'); auto. }
  assert (D : n <> n') by (intros ->; rewrite NL in E; auto).
  assert (X : forall a b, a < b -> edge_type g a b = Some HADAMARD -> In (a, b) c).
  { intros a b L Eab. eapply Permutation_in; [apply Permutation_sym; exact PC|]. apply in_edges; auto. split; auto. congruence. }
  destruct (Nat.lt_total n n') as [L|[L|L]]; [|contradiction|].
  - apply (match_pivot_nil g c 0 H n n'); auto.
  - apply (match_pivot_nil g c 0 H n' n); auto; [apply X; auto|]; rewrite (wf_sym g W); auto.
Qed.

(** ** interior_clifford_simp *)
Definition zinvx (g : graph) : Prop := zinv g /\ noX g.
Lemma keepb_x : forall g g', zinvx g -> keepb g g' -> zinvx g'.
Proof. intros g g' [_ X] [Z B]. split; auto. eapply bfix_noX; eauto. Qed.
Lemma icl_body_tot : forall md i, tot zinvx (icl_body md i) (fun g ib g' => zinvx g').
Proof.
  intros md i. assert (T : forall A (p : proc A), tot zinv p (fun g _ g' => keepb g g') -> tot zinvx p (fun _ _ g' => zinvx g')).
  { intros A p H g r HX R. destruct (H g r (proj1 HX) R) as [a [g' [E K]]]. exists a, g'. split; auto. eapply keepb_x; eauto. }
  assert (W : forall A B (p : proc A) (k : A -> proc B), tot zinv p (fun g _ g' => keepb g g') -> (forall a, tot zinvx (k a) (fun _ _ g' => zinvx g')) -> tot zinvx (pbind p k) (fun _ _ g' => zinvx g')).
  { intros A B p k Hp Hk. eapply tot_bind; [apply T; exact Hp|]. intros g0 a g r [_ HX] R. exact (Hk a g r HX R). }
  apply W; [apply id_simp_tot|intros i1]. apply W; [apply spider_simp_tot|intros i2]. apply W; [apply pivot_simp_tot|intros i3]. apply W; [apply lcomp_simp_tot|intros i4].
  intros g r HX R. destruct (Nat.eqb _ 0); simpl in R; subst r; eauto.
Qed.
Theorem interior_clifford_tot : forall md, tot zinv (interior_clifford_simp md)
  (fun g _ g' => zinv g' /\ noX g' /\ (md = AllC -> glike g' /\ psep g')).
Proof.
  intros md. eapply tot_bind; [apply spider_simp_tot|]. intros g0 _ g r [_ [Z _]] R.
  destruct (tot_bind _ _ zinv p_to_gh (fun _ _ g' => zinvx g') (fun _ => ploop (icl_body md) 0)
    (fun _ _ g' => zinvx g' /\ (md = AllC -> glike g' /\ psep g'))) with (g := g) (r := r) as [a [g' [E H]]]; auto.
  - intros h r' Zh Rh. destruct (to_gh_tot h r' Zh Rh) as [a [g' [E K]]]. exists a, g'. split; auto.
  - intros h0 _ h r' [_ HX] Rh. refine (tot_loop _ (icl_body md) (fun _ => zinvx) (fun _ g' => zinvx g' /\ (md = AllC -> glike g' /\ psep g')) _ 0 h r' HX Rh).
    clear. intros i h r HX R. destruct (icl_body_tot md i h r HX R) as [[i' b] [g' [-> HX']]]. exists (i', b), g'. split; auto. cbn [fst snd].
    destruct b; auto. split; auto. intros ->. destruct (icl_body_run AllC i h i' false g' (zi_zx _ (proj1 HX)) R) as [_ [-> [_ [[c2 [O2 M2]] [[c3 [so [O3 M3]]] _]]]]].
    destruct HX as [Zh NX]. assert (ZX := zi_zx _ Zh). assert (GL : glike h) by (eapply glike_of_nil; [apply ZX|apply ZX|apply ZX|exact NX|exact O2|exact M2]).
    split; auto. eapply psep_of_nil; [apply ZX|apply ZX|exact GL|exact (proj1 O3)|exact M3].
  - exists a, g'. split; auto. destruct H as [[H1 H2] H3]. auto.
Qed.
