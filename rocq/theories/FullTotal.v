(** clifford_simp and full_reduce: every execution returns normally, keeps the
    invariants and preserves the linear map. *)
From Coq Require Import Reals ZArith QArith Qcanon List Bool Arith Lia Permutation.
From Verif Require Import CNum Base ScalarModel ScalarProofs GraphModel GraphSem SumLemmas GraphProofs GraphOps StoreProofs
  RulesModel RuleLemmas SpiderProofs IsoProofs IdProofs LcompProofs PivotProofs GrowProofs PivotMatch GadgetProofs
  SimpModel ColorProofs SimpProofs PairProofs RuleShape TermProofs InvProofs RoundProofs BfixProofs TotalProofs GrowTotal.
Import ListNotations.
Open Scope nat_scope.

(** the linear map is kept, for every choice of phases and constants *)
Definition rel (g g' : graph) : Prop := forall (K : C -> Prop) (P : Qc -> Prop), good K P -> allph P g -> step_k K g g' /\ allph P g'.
Lemma rel_refl : forall g, zxok g -> rel g g.
Proof. intros g Z K P G A. split; auto. apply step_k_refl; auto. apply G. Qed.
Lemma rel_trans : forall a b c, rel a b -> rel b c -> rel a c.
Proof.
  intros a b c R1 R2 K P G A. destruct (R1 K P G A) as [S1 A1]. destruct (R2 K P G A1) as [S2 A2]. split; auto.
  eapply step_k_trans; [apply G|exact S1|exact S2].
Qed.
(** totality together with the relation *)
Definition totr {A} (I : graph -> Prop) (p : proc A) (J : A -> graph -> Prop) : Prop := tot I p (fun g a g' => J a g' /\ rel g g').
Lemma totr_bind : forall A B (I : graph -> Prop) (p : proc A) (M : A -> graph -> Prop) (k : A -> proc B) J,
  totr I p M -> (forall a, totr (M a) (k a) J) -> totr I (pbind p k) J.
Proof.
  intros A B I p M k J Hp Hk. eapply tot_bind; [exact Hp|]. intros g0 a g r [_ [HM R0]] R.
  destruct (Hk a g r HM R) as [b [g' [E [HJ R1]]]]. exists b, g'. split; auto. split; auto. eapply rel_trans; eauto.
Qed.
Lemma totr_ret : forall A (I : graph -> Prop) (a : A) (J : A -> graph -> Prop), (forall g, I g -> zxok g) -> (forall g, I g -> J a g) -> totr I (pret a) J.
Proof. intros A I a J Z H g r HI E. simpl in E. exists a, g. split; auto. split; auto. apply rel_refl; auto. Qed.
Lemma totr_loop : forall A (body : A -> proc (A * bool)) (I : A -> graph -> Prop) (J : A -> graph -> Prop), (forall a g, I a g -> zxok g) ->
  (forall a, totr (I a) (body a) (fun ab g' => if snd ab then I (fst ab) g' else J (fst ab) g')) -> forall a, totr (I a) (ploop body a) J.
Proof.
  intros A body I J Z HB a g r HI R.
  refine (tot_loop _ body (fun a' g' => I a' g' /\ rel g g') (fun a' g' => J a' g' /\ rel g g') _ a g r _ R); [|split; auto; apply rel_refl; eauto].
  intros a1 g1 r1 [H1 R1] Rn. destruct (HB a1 g1 r1 H1 Rn) as [[a2 b] [g2 [E [H2 R2]]]]. exists (a2, b), g2. split; auto. cbn [fst snd] in *.
  assert (rel g g2) by (eapply rel_trans; eauto). destruct b; auto.
Qed.
Lemma totr_weak : forall A (I I' : graph -> Prop) (p : proc A) (J J' : A -> graph -> Prop), (forall g, I' g -> I g) -> (forall a g, J a g -> J' a g) -> totr I p J -> totr I' p J'.
Proof. intros A I I' p J J' HI HJ H g r Hg R. destruct (H g r (HI g Hg) R) as [a [g' [E [X Y]]]]. exists a, g'. auto. Qed.
(** loops of rewrites, with what the count says *)
Section SimpR.
  Context {Ch M : Type} (okc : graph -> Ch -> Prop) (mt : Ch -> graph -> res (list M * graph)) (rw : Ch -> list M -> graph -> res rwout).
  Variable I : graph -> Prop.
  Hypothesis Z : forall g, I g -> zxok g.
  Hypothesis once : forall c g, I g -> okc g c -> exists b g', simp_once (mt c) (rw c) g = Ok (b, g') /\ I g' /\ rel g g' /\ (b = false -> g' = g).
  Lemma simp_totr : forall g r, I g -> run (simp okc mt rw) g r -> exists n g', r = Ok (n, g') /\ I g' /\ rel g g' /\ (n = 0 -> g' = g).
  Proof.
    intros g r HI R.
    refine (tot_loop _ _ (fun i g' => I g' /\ rel g g' /\ (i = 0 -> g' = g)) (fun i g' => I g' /\ rel g g' /\ (i = 0 -> g' = g)) _ 0 g r _ R).
    - intros i h r' [HI' [R1 N1]] [[e [[c [Oc E]] ->]]|[b [g1 [[c [Oc E]] R']]]].
      + destruct (once c h HI' Oc) as [b [g' [E' _]]]. congruence.
      + destruct (once c h HI' Oc) as [b' [g' [E' [H1 [H2 H3]]]]]. rewrite E' in E. injection E as -> ->. exists (if b' then i + 1 else i, b'), g'.
        split; [exact R'|]. cbn [fst snd]. assert (rel g g') by (eapply rel_trans; eauto). destruct b'; (split; [auto|split; auto]); [lia|].
        intros X. rewrite H3 by auto. auto.
    - split; auto. split; auto. apply rel_refl; auto.
  Qed.
End SimpR.

(** the simplifiers of TotalProofs in this form *)
Lemma rel_of_sound : forall A (p : proc A) g a g', (forall (K : C -> Prop) (P : Qc -> Prop), good K P -> psound (zxi P) p (fun g _ g' => step_k K g g' /\ zxi P g')) ->
  zxok g -> run p g (Ok (a, g')) -> rel g g'.
Proof. intros A p g a g' H Z R K P G AP. destruct (H K P G g a g' (conj Z AP) R) as [S [_ AP']]. auto. Qed.
Theorem interior_clifford_totr : forall md, totr zinv (interior_clifford_simp md) (fun _ g' => zinv g' /\ (md = AllC -> glike g' /\ psep g')).
Proof.
  intros md g r Z R. destruct (interior_clifford_tot md g r Z R) as [a [g' [-> [Z' [NX H]]]]]. exists a, g'. split; auto. split; auto.
  refine (rel_of_sound nat (interior_clifford_simp md) g a g' _ (zi_zx g Z) R). intros K P G. exact (interior_clifford_sound K P G md).
Qed.

(** ** pivot_gadget_simp, pivot_boundary_simp *)
Lemma once_growr : forall so g (mt : graph -> res (list pmatch * graph)) ms g2, so_ok so -> zg g -> mt g = Ok (ms, g2) -> grow_res g g2 ms ->
  exists b g', simp_once mt (pivot so) g = Ok (b, g') /\ zg g' /\ rel g g' /\ (b = false -> g' = g).
Proof.
  intros so g mt ms g2 SO ZG E G. destruct (once_grow so g mt ms g2 SO ZG E G) as [b [g' [H ZG']]]. exists b, g'. split; auto. split; auto.
  destruct ZG as [Z _]. assert (H' := H). apply simp_once_inv in H. destruct H as [ms' [g1 [E' H]]]. rewrite E in E'. injection E' as <- <-.
  destruct H as [[-> [-> ->]]|[NE [-> [o [E1 E2]]]]].
  - rewrite (gw_nil _ _ _ G eq_refl). split; auto. apply rel_refl. apply Z.
  - split; [|discriminate]. intros K P GD AP.
    assert (AP1 : allph P g2) by (apply (gw_ph _ _ _ G); auto; apply GD).
    destruct (pivot_step_matches so K P g2 ms o g') as [S2 AP2]; auto; first [apply (zi_zx _ (gw_z _ _ _ G))|apply G|idtac].
    split; auto. eapply step_k_trans; [apply GD|apply step_ok_k; [apply GD|exact (gw_step _ _ _ G)]|exact S2].
Qed.
Lemma zg_zx : forall g, zg g -> zxok g. Proof. intros g [Z _]. apply Z. Qed.
Theorem pivot_gadget_simp_totr : forall md, totr zg (pivot_gadget_simp md) (fun _ g' => zg g').
Proof.
  intros md g r HZ R. destruct (simp_totr (ok_edges_so md) (fun c g => match_pivot_gadget (fst c) None g) (fun c => pivot (snd c)) zg zg_zx) with (g := g) (r := r) as [n [g' [E [H1 [H2 _]]]]]; auto.
  - clear. intros [c so] g [Z GL] [Oc SO]. cbn [fst snd] in *.
    destruct (match_pivot_gadget_total g c None Z GL) as [ms [g2 [E G]]]; [intros e He; exact (cand_ok_in _ _ _ _ _ Oc He)|].
    eapply once_growr; eauto. split; auto.
  - exists n, g'. auto.
Qed.
Theorem pivot_boundary_simp_totr : forall md g r, zg g -> run (pivot_boundary_simp md) g r ->
  exists n g', r = Ok (n, g') /\ zg g' /\ rel g g' /\ (n = 0 -> g' = g).
Proof.
  intros md g r HZ R. apply (simp_totr (ok_vertices_so md) (fun c g => match_pivot_boundary (fst c) None g) (fun c => pivot (snd c)) zg zg_zx) with (g := g) (r := r); auto.
  clear. intros [c so] g [Z GL] [Oc SO]. cbn [fst snd] in *.
  destruct (match_pivot_boundary_total g c None Z GL) as [ms [g2 [E G]]]; [intros e He; exact (cand_ok_in _ _ _ _ _ Oc He)|exact (cand_ok_nd _ _ _ _ Oc (wf_nd g (zx_wf g (zi_zx g Z))))|].
  eapply once_growr; eauto. split; auto.
Qed.

(** ** clifford_simp *)
Definition zgp (g : graph) : Prop := zinv g /\ glike g /\ psep g.
Theorem clifford_simp_totr : totr zinv (clifford_simp AllC) (fun _ g' => zgp g').
Proof.
  unfold clifford_simp. apply (totr_loop _ _ (fun _ => zinv) (fun _ => zgp)); [intros _ g Z; apply Z|]. intros i.
  eapply totr_bind; [apply (interior_clifford_totr AllC)|]. intros k g r [Z H] R. destruct (H eq_refl) as [GL PS]. clear H.
  destruct R as [[e [R ->]]|[i2 [g1 [R R2]]]].
  - destruct (pivot_boundary_simp_totr AllC g (Err e) (conj Z GL) R) as [n [g' [E _]]]. discriminate.
  - destruct (pivot_boundary_simp_totr AllC g _ (conj Z GL) R) as [n [g' [E [ZG [RL N]]]]]. injection E as <- <-. simpl in R2. subst r.
    eexists. eexists. split; [reflexivity|]. cbn [fst snd]. split; auto. destruct (Nat.eqb_spec i2 0); cbn [negb].
    + subst i2. rewrite (N eq_refl). split; auto.
    + apply ZG.
Qed.

(** ** gadget_simp *)
Lemma zinv_dok : forall g, zinv g -> dok g.
Proof.
  intros g [ZX D P RW IO]. assert (W := zx_wf g ZX).
  assert (B : forall b, isB g b = true -> vty g b = BOUNDARY) by (intros b H; unfold isB in H; apply vtype_eqb_eq; auto).
  constructor; auto.
  intros b u w Hb Hu Hw. destruct (D b (edge_type_in_l g b u Hu) (B b Hb)) as [x Hx]. apply Hx in Hu, Hw. congruence.
Qed.
Lemma psep_gsep : forall g, zxok g -> psep g -> gsep g.
Proof.
  intros g ZX PS n n' [T [P [v [L NC]]]] [T' [P' [v' [L' NC']]]] I1 I2. assert (W := zx_wf g ZX). assert (NL := zx_noloop g ZX).
  destruct (edge_type g n n') eqn:E; auto. exfalso.
  assert (X : forall a b l, edge_type g a b <> None -> gleaf g a l -> non_clifford (phase g l) = true -> is_pauli (phase g b) = true -> length (neighbors g a) = 1 -> False).
  { clear -W. intros a b l E [_ [_ [EL NL]]] NC PB LN. destruct (neighbors g a) as [|x [|]] eqn:N; try discriminate.
    assert (b = x). { apply neighbors_spec in E. rewrite N in E. destruct E as [|[]]; auto. }
    assert (l = x). { assert (Y : edge_type g a l <> None) by (rewrite (wf_sym g W); congruence). apply neighbors_spec in Y. rewrite N in Y. destruct Y as [|[]]; auto. }
    subst. apply pauli_clifford in PB. congruence. }
  destruct (PS n n' T T' P P' I1 I2) as [LN|LN]; [congruence|..].
  - apply (X n n' v); auto. congruence.
  - apply (X n' n v'); auto. rewrite (wf_sym g W). congruence.
Qed.
Lemma emit_keep : forall gadgets pa ms g ms' g', foldM (gadget_emit gadgets) pa (ms, g) = Ok (ms', g') -> (ms' = ms /\ g' = g) \/ length ms < length ms'.
Proof.
  intros gadgets pa. induction pa as [|pg pa IH]; intros ms g ms' g' H; [injection H as <- <-; auto|].
  cbn [foldM] in H. inv_bind H. destruct a as [ms1 g1].
  assert (X : (ms1 = ms /\ g1 = g) \/ length ms < length ms1).
  { clear -E. unfold gadget_emit in E. destruct pg as [par gad]. destruct gad as [|n [|n2 l]].
    - inv_bind E. destruct (rev a) as [|[x y] o]; [discriminate|]. injection E as <- <-. rewrite app_length. simpl. right. lia.
    - inv_bind E. destruct (qeqb _ _); injection E as <- <-; auto. rewrite app_length. simpl. right. lia.
    - inv_bind E. destruct (rev a) as [|[x y] o]; [discriminate|]. injection E as <- <-. rewrite app_length. simpl. right. lia. }
  apply IH in H. destruct X as [[-> ->]|X]; [exact H|]. destruct H as [[-> ->]|H]; right; lia.
Qed.
Lemma zgp_zx : forall g, zgp g -> zxok g. Proof. intros g [Z _]. apply Z. Qed.

Lemma gadget_tonce : forall md c g, zgp g -> ok_vertices md g c ->
  exists b g', simp_once (match_phase_gadgets c) merge_phase_gadgets g = Ok (b, g') /\ zgp g' /\ rel g g' /\ (b = false -> g' = g).
Proof.
  intros md c g [Z [GL PS]] Oc. assert (ZX := zi_zx g Z). assert (W := zx_wf g ZX). assert (NL := zx_noloop g ZX).
  assert (DK := zinv_dok g Z). assert (GS := psep_gsep g ZX PS).
  assert (HM : exists ms g1, match_phase_gadgets c g = Ok (ms, g1)).
  { unfold match_phase_gadgets. destruct (fold_left (gadget_collect g) c ([],[])) as [gadgets pa] eqn:EC.
    assert (CO : coll g (gadgets, pa)) by (rewrite <- EC; apply collect_fold; auto; apply coll_nil).
    destruct (emit_all gadgets g pa [] g) as [s [E N]]; auto; [|eauto].
    intros [par gad] Hp. split; [apply (co_par _ _ CO par gad Hp)|]. intros n Hn. apply (co_in _ _ CO). apply in_flat_map. eauto. }
  destruct HM as [ms [g1 HM]]. unfold simp_once. rewrite HM. cbn [bind]. destruct ms as [|m0 ms0] eqn:EM.
  - assert (g1 = g).
    { unfold match_phase_gadgets in HM. destruct (fold_left (gadget_collect g) c ([],[])) as [gadgets pa]. apply emit_keep in HM. destruct HM as [[_ ->]|H]; auto. simpl in H. lia. }
    subst g1. exists false, g. split; auto. split; [split; auto|]. split; auto. apply rel_refl; auto.
  - rewrite <- EM in *. clear m0 ms0 EM. assert (HM0 := HM).
    unfold match_phase_gadgets in HM. destruct (fold_left (gadget_collect g) c ([],[])) as [gadgets pa] eqn:EC.
    assert (CO : coll g (gadgets, pa)) by (rewrite <- EC; apply collect_fold; auto; apply coll_nil).
    destruct (emit_all gadgets g pa [] g) as [s [E N]]; auto.
    { intros [par gad] Hp. split; [apply (co_par _ _ CO par gad Hp)|]. intros n Hn. apply (co_in _ _ CO). apply in_flat_map. eauto. }
    rewrite E in HM. injection HM as <- <-. cbn [app] in *. set (gd := gdl gadgets) in *. set (ms := flat_map (emitm g gd) pa) in *.
    assert (VM : forall v, In v (flat_map gmv' ms) -> In v (vertices g) /\ vty g v = ZSP /\ (is_pauli (phase g v) = true \/ length (neighbors g v) = 1)).
    { intros v Hv. destruct (emitted_in g gadgets pa CO v Hv) as [pg [Hp Hu]]. apply gall_in in Hu. destruct Hu as [n [Hn Ev]].
      destruct (fu_leaf g gadgets pa DK GL CO n (ax_in _ _ _ Hp Hn)) as [L [NC PP]]. fold gd in L.
      destruct (leaf_in g n (gd n) W L) as [I1 I2]. destruct L as [L1 [L2 [L3 L4]]]. destruct Ev as [->| ->]; auto. split; auto. split; auto. right. unfold gd in *. rewrite L4. reflexivity. }
    destruct (mstep_fold ms (on_scalar (fun _ => s) g)) as [X1 [X2 [X3 [X4 [X5 X6]]]]].
    { apply on_scalar_wfg; auto. }
    { exact (emitted_nd g gadgets pa DK GL CO). }
    { intros v Hv. apply VM in Hv. apply Hv. }
    set (h := fold_left mstep ms (on_scalar (fun _ => s) g)) in *.
    assert (EO : merge_phase_gadgets ms (on_scalar (fun _ => s) g) = Ok (mkRw h [] (flat_map gmr ms) [] false)).
    { unfold merge_phase_gadgets. rewrite merge_fold. reflexivity. }
    assert (ETh : forall a b, edge_type h a b = edge_type g a b) by (intros; unfold edge_type; rewrite X3; reflexivity).
    assert (AP := A_perm g gadgets pa CO). fold gd in AP. fold ms in AP.
    assert (AN := A_nd g gadgets pa DK GL CO). fold gd in AN.
    assert (RIN : forall u, In u (flat_map gmr ms) -> exists pg n, In pg (mg pa) /\ In n (snd pg) /\ (u = n \/ u = gd n)).
    { intros u Hu. apply (A_in gadgets pa u). eapply Permutation_in; [apply Permutation_sym; exact AP|]. apply in_app_iff; auto. }
    assert (RZ : forall u, In u (flat_map gmr ms) -> In u (vertices g) /\ vty g u = ZSP /\ forall b, edge_type g u b <> None -> vty g b <> BOUNDARY).
    { intros u Hu. destruct (RIN u Hu) as [pg [n [Hm [Hn Ev]]]]. assert (Hm' := Hm). apply mg_in in Hm'. destruct Hm' as [Hp Hl].
      destruct (fu_leaf g gadgets pa DK GL CO n (ax_in _ _ _ Hp Hn)) as [L [NC PP]]. fold gd in L. destruct (leaf_in g n (gd n) W L) as [I1 I2]. assert (L' := L). destruct L as [L1 [L2 [L3 L4]]].
      destruct Ev as [->| ->].
      - split; auto. split; auto. intros b Hb. apply neighbors_spec in Hb. apply (mg_interior g gadgets pa DK GL CO pg n Hm Hn) in Hb. unfold isB in Hb. destruct (vty g b); discriminate.
      - split; auto. split; auto. intros b Hb. apply neighbors_spec in Hb. unfold gd in *. rewrite L4 in Hb. destruct Hb as [<-|[]]. congruence. }
    assert (NDR : NoDup (flat_map gmr ms)).
    { eapply Permutation_NoDup in AN; [|exact AP]. apply nodup_app_inv in AN. tauto. }
    assert (Vh : vertices h = vertices g) by (rewrite (proj1 X2); reflexivity).
    assert (NLh : noloop h) by (intros v; rewrite ETh; apply NL).
    destruct (remove_vertices_ok (flat_map gmr ms) h X1 NLh NDR) as [g' EV].
    { intros v Hv. rewrite Vh. apply RZ; auto. }
    assert (EA : apply_rw (mkRw h [] (flat_map gmr ms) [] false) = Ok g').
    { unfold apply_rw. cbn [rw_etab rw_graph rw_edges rw_verts rw_check]. cbn. rewrite EV. reflexivity. }
    rewrite EO. cbn [bind]. rewrite EA. cbn [bind]. exists true, g'. split; auto.
    assert (RL : rel g g').
    { intros K P GD APH. exact (gadget_step K P c g ms _ _ g' GD DK GL GS APH HM0 EO EA). }
    assert (Th : forall v, vty h v = vty g v) by (intros; rewrite (same_frame_vty _ _ v X2); reflexivity).
    assert (RM := remove_vertices_spec _ _ _ X1 EV).
    destruct (remove_vertices_bfix _ _ _ X1 EV) as [_ BF].
    assert (BH : bfix g h).
    { apply (bfix_trans g (on_scalar (fun _ => s) g) h); [constructor; auto|]. apply bfix_frame; auto. intros v Tv. apply X5. intros Hv. apply VM in Hv. change (vty g v = BOUNDARY) in Tv. destruct Hv as [_ [Hv _]]. congruence. }
    assert (D' : bdeg g').
    { intros b Hb Tb. rewrite (rm_vs _ _ _ RM), Vh in Hb. apply filter_In in Hb. destruct Hb as [Hb M]. rewrite negb_true_iff in M.
      rewrite (rm_ty _ _ _ RM), Th in Tb by (apply mem_false; auto). destruct (zi_deg g Z b Hb Tb) as [u Hu]. exists u. intros w. rewrite (rm_edge _ _ _ RM), M, ETh. cbn [orb]. rewrite <- Hu.
      destruct (mem w (flat_map gmr ms)) eqn:Mw; [|tauto]. split; [congruence|]. intros X. exfalso. apply mem_spec in Mw. destruct (RZ w Mw) as [_ [_ Y]]. apply (Y b); auto. rewrite (wf_sym g W). auto. }
    assert (ST := proj1 (RL nonzero anyph good_nonzero (fun _ _ => I))).
    assert (Z' : zinv g').
    { apply (zinv_bfix g g'); auto; [eapply bfix_trans; eauto|eapply step_k_zx; eauto| |]; apply ST. }
    split; [|split; auto; discriminate]. split; auto. split.
    + apply (removed_glike (flat_map gmr ms) h g' RM). split.
      * intros v Hv. rewrite Th. apply GL. congruence.
      * intros a b e Ee. rewrite ETh in Ee. rewrite !Th. apply (proj2 GL); auto.
    + (* psep *)
      assert (SUB : forall a b, edge_type g' a b <> None -> edge_type g a b <> None).
      { intros a b H. rewrite (rm_edge _ _ _ RM), ETh in H. destruct (_ || _); congruence. }
      assert (KP : forall a b, edge_type g' a b <> None -> ~ In a (flat_map gmr ms)).
      { intros a b H. rewrite (rm_edge _ _ _ RM) in H. destruct (mem a _) eqn:Ma; [cbn [orb] in H; congruence|]. apply mem_false; auto. }
      assert (PP : forall a b, edge_type g' a b <> None -> is_pauli (phase g' a) = true -> is_pauli (phase g a) = true \/ length (neighbors g a) = 1).
      { intros a b H Pa. rewrite (rm_phase _ _ _ RM) in Pa by (eapply KP; eauto).
        destruct (in_dec Nat.eq_dec a (flat_map gmv' ms)) as [Ia|Ia]; [apply VM; auto|]. rewrite X5 in Pa by auto. auto. }
      assert (ONE : forall a b, edge_type g' a b <> None -> length (neighbors g a) = 1 -> length (neighbors g' a) = 1).
      { intros a b H L. destruct (neighbors g a) as [|x [|]] eqn:Na; try discriminate.
        assert (Y : forall w, edge_type g' a w <> None <-> w = b).
        { intros w. split; [|intros ->; auto]. intros Hw. apply SUB, neighbors_spec in Hw. apply SUB, neighbors_spec in H. rewrite Na in Hw, H. destruct Hw as [<-|[]], H as [<-|[]]. auto. }
        assert (Permutation (neighbors g' a) [b]).
        { apply nodup_same_perm; [apply neighbors_nd, RM|constructor; [simpl; tauto|constructor]|]. intros w. rewrite neighbors_spec, Y. simpl. intuition. }
        apply Permutation_length in H0. exact H0. }
      assert (SYM : forall a b, edge_type g' a b <> None -> edge_type g' b a <> None) by (intros a b H; rewrite (wf_sym g' (rm_wf _ _ _ RM)); auto).
      assert (INT : forall a b, edge_type g' a b <> None -> interior g' a -> interior g a).
      { intros a b H Ia u Hu. destruct (isB g u) eqn:Bu; auto. assert (Tu : vty g u = BOUNDARY) by (unfold isB in Bu; apply vtype_eqb_eq; auto).
        assert (Nu : ~ In u (flat_map gmr ms)) by (intros X; destruct (RZ u X) as [_ [Y _]]; congruence).
        assert (Eu : edge_type g' a u <> None).
        { rewrite (rm_edge _ _ _ RM), ETh. rewrite (proj2 (mem_false _ _) (KP a b H)), (proj2 (mem_false _ _) Nu). cbn [orb]. apply neighbors_spec; auto. }
        apply neighbors_spec in Eu. apply Ia in Eu. unfold isB in *. rewrite (rm_ty _ _ _ RM), Th in Eu by auto. congruence. }
      intros n n' T T' P P' I1 I2 En. assert (En' := SYM _ _ En).
      destruct (PP n n' En P) as [Q|Q]; [|left; eapply ONE; eauto]. destruct (PP n' n En' P') as [Q'|Q']; [|right; eapply ONE; eauto].
      rewrite (rm_ty _ _ _ RM), Th in T by (eapply KP; eauto). rewrite (rm_ty _ _ _ RM), Th in T' by (eapply KP; eauto).
      destruct (PS n n' T T' Q Q') as [L|L]; eauto.
Qed.
Theorem gadget_simp_totr : forall md, totr zgp (gadget_simp md) (fun _ g' => zgp g').
Proof.
  intros md g r HZ R. destruct (simp_totr (ok_vertices md) (fun c g => match_phase_gadgets c g) (fun _ => merge_phase_gadgets) zgp zgp_zx) with (g := g) (r := r) as [n [g' [E [H1 [H2 _]]]]]; auto.
  - clear. intros c g H Oc. exact (gadget_tonce md c g H Oc).
  - exists n, g'. auto.
Qed.

(** ** full_reduce *)
Theorem full_reduce_totr : totr zinv (full_reduce AllC) (fun _ g' => zg g').
Proof.
  unfold full_reduce. apply (totr_bind _ _ zinv _ (fun _ => zinv)).
  { intros g r Z R. simpl in R. destruct (existsb _ _) eqn:E; [exfalso|].
    - apply existsb_exists in E. destruct E as [v [Hv Tv]]. apply vtype_eqb_eq in Tv. exact (zx_zx g (zi_zx g Z) v Hv Tv).
    - exists tt, g. split; auto. split; auto. apply rel_refl. apply Z. }
  intros u0. apply (totr_bind _ _ _ _ _ _ _ (interior_clifford_totr AllC)). intros i0.
  apply (totr_bind _ _ _ _ (fun _ => zg)); [eapply totr_weak; [|intros a g H; exact H|apply (pivot_gadget_simp_totr AllC)]; intros g [Z H]; destruct (H eq_refl); split; auto|]. intros j0.
  apply (totr_loop _ _ (fun _ => zg) (fun _ => zg)); [intros u1; apply zg_zx|]. intros u1.
  apply (totr_bind _ _ _ _ (fun _ => zgp)); [eapply totr_weak; [|intros a g H; exact H|apply clifford_simp_totr]; intros g [Z ?]; auto|]. intros k0.
  apply (totr_bind _ _ _ _ (fun _ => zgp)); [apply gadget_simp_totr|]. intros i.
  apply (totr_bind _ _ _ _ (fun _ g' => zinv g' /\ (AllC = AllC -> glike g' /\ psep g'))); [eapply totr_weak; [|intros a g H; exact H|apply (interior_clifford_totr AllC)]; intros g [Z _]; auto|]. intros l.
  apply (totr_bind _ _ _ _ (fun _ => zg)); [eapply totr_weak; [|intros a g H; exact H|apply (pivot_gadget_simp_totr AllC)]; intros g [Z H]; destruct (H eq_refl); split; auto|]. intros j.
  apply totr_ret; [apply zg_zx|]. intros g H. cbn [fst snd]. destruct (negb _); auto.
Qed.
