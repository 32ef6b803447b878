(** pivot_gadget_simp keeps interior Pauli spiders apart, so that gadget fusion
    may follow it. *)
From Coq Require Import Reals ZArith QArith Qcanon List Bool Arith Lia Permutation.
From Verif Require Import LinModel LinProofs CNum Base ScalarModel ScalarProofs GraphModel GraphSem SumLemmas GraphProofs GraphOps StoreProofs
  RulesModel RuleLemmas SpiderProofs IsoProofs IdProofs LcompProofs PivotProofs GrowProofs PivotMatch GadgetProofs
  SimpModel ColorProofs SimpProofs PairProofs RuleShape TermProofs InvProofs RoundProofs BfixProofs TotalProofs GrowTotal FullTotal TCount TCountRules ExtractPivot.
Import ListNotations.
Open Scope nat_scope.

(** ** Integer phases *)
Definition intp (p : Qc) : Prop := exists z, p = Qcz z.
Lemma Qcz_add : forall a b, (Qcz a + Qcz b)%Qc = Qcz (a + b).
Proof. intros a b. apply Qc_is_canon. change (this (Qcz a + Qcz b)) with (Qred (Qcz a + Qcz b)). rewrite Qred_correct, !this_Qcz, inject_Z_plus. reflexivity. Qed.
Lemma Qcz_opp : forall a, (- Qcz a)%Qc = Qcz (- a).
Proof. intros a. apply Qc_is_canon. change (this (- Qcz a)) with (Qred (- Qcz a)). rewrite Qred_correct, !this_Qcz, inject_Z_opp. reflexivity. Qed.
Lemma Qcz_0 : Qcz 0 = 0%Qc. Proof. apply Qc_is_canon. reflexivity. Qed.
Lemma Qcz_1 : Qcz 1 = 1%Qc. Proof. apply Qc_is_canon. reflexivity. Qed.
Lemma intp_add : forall p q, intp p -> intp q -> intp (p + q)%Qc.
Proof. intros p q [a ->] [b ->]. exists (a + b)%Z. apply Qcz_add. Qed.
Lemma intp_mod : forall p, intp (qmod2 p) <-> intp p.
Proof.
  intros p. destruct (qmod2_diff p) as [n E]. split; intros H.
  - rewrite E. apply intp_add; auto. exists (2 * n)%Z; auto.
  - replace (qmod2 p) with (p + - Qcz (2 * n))%Qc by (rewrite E at 1; ring). apply intp_add; auto. exists (- (2 * n))%Z. apply Qcz_opp.
Qed.
Lemma intp_pauli : forall p, is_pauli p = true -> intp p.
Proof. intros p H. destruct (pauli_cases p H) as [-> | ->]; [exists 0%Z|exists 1%Z]; apply Qc_is_canon; reflexivity. Qed.
Lemma pauli_intp : forall p, in02 p -> intp p -> is_pauli p = true.
Proof.
  intros p [L U] [z ->]. unfold is_pauli. rewrite orb_true_iff, !qeqb_eq.
  assert (z = 0 \/ z = 1)%Z as [-> | ->]; [|left; apply Qcz_0|right; apply Qcz_1].
  unfold Qcle, Qclt in *. rewrite !this_Qcz in *. unfold Qle, Qlt in *. cbn [Qnum Qden inject_Z this] in *. cbn in L, U. lia.
Qed.
Lemma pauli_iff : forall p, in02 p -> is_pauli p = true <-> intp p.
Proof. intros p I. split; [apply intp_pauli|apply pauli_intp; auto]. Qed.
Definition ieq (g g' : graph) : Prop := forall v, intp (phase g' v) <-> intp (phase g v).
Lemma ieq_refl : forall g, ieq g g. Proof. intros g v; tauto. Qed.
Lemma ieq_trans : forall a b c, ieq a b -> ieq b c -> ieq a c. Proof. intros a b c H1 H2 v. rewrite (H2 v). apply H1. Qed.
Lemma ieq_ph : forall g g', gphase g' = gphase g -> ieq g g'. Proof. intros g g' E v. unfold phase. rewrite E. tauto. Qed.
Lemma ieq_add : forall v a g, intp a -> ieq g (add_to_phase v a g).
Proof.
  intros v a g A u. rewrite phase_add_to_phase. destruct (Nat.eqb_spec u v); [|tauto]. subst. rewrite intp_mod. split; intros H; [|apply intp_add; auto].
  destruct A as [z ->]. replace (phase g v) with ((phase g v + Qcz z) + - Qcz z)%Qc by ring. apply intp_add; auto. exists (- z)%Z. apply Qcz_opp.
Qed.
Lemma ieq_adds : forall vs a g, intp a -> ieq g (add_phases vs a g).
Proof. induction vs as [|v vs IH]; intros a g A; [apply ieq_refl|]. cbn. eapply ieq_trans; [apply ieq_add; exact A|]. apply IH; auto. Qed.
Lemma intp_1 : intp 1%Qc. Proof. exists 1%Z. symmetry. apply Qcz_1. Qed.
Lemma add_edge_ieq : forall s t e g g', add_edge s t e g = Ok g' -> ieq g g'.
Proof.
  intros s t e g g' H. unfold add_edge in H. destruct (dget s (gadj g)) as [ds|]; [|discriminate].
  assert (S : forall s t e g g', set_edge_type s t e g = Ok g' -> gphase g' = gphase g) by (clear; intros; unfold set_edge_type in H; inv_bind H; inv_bind H; injection H as <-; reflexivity).
  destruct (dget t ds) as [et1|].
  - inv_bind H. inv_bind H. destruct (_ && _); [|discriminate]. destruct (if Bool.eqb _ _ then _ else _) as [fu ho].
    destruct (etype_eqb e fu && etype_eqb et1 fu); [injection H as <-; apply ieq_refl|]. match type of H with (if ?x then _ else _) = _ => destruct x end.
    + inv_bind H. injection H as <-. eapply ieq_trans; [apply ieq_ph; exact (S _ _ _ _ _ E1)|]. eapply ieq_trans; [apply (ieq_add s 1%Qc); exact intp_1|]. apply ieq_ph. reflexivity.
    + destruct (_ && _); [|discriminate]. inv_bind H. injection H as <-. unfold remove_edge in E1. inv_bind E1. inv_bind E1. injection E1 as <-. apply ieq_ph. reflexivity.
  - apply ieq_ph. rewrite (S _ _ _ _ _ H). reflexivity.
Qed.
Lemma units_effect : forall us g g', wfg g -> (forall s t et, In (s, t, et) us -> s <> t) -> foldM add_u us g = Ok g' ->
  wfg g' /\ ieq g g' /\ (forall x y, edge_type g' x y <> None -> edge_type g x y <> None \/ exists et, In (x, y, et) us \/ In (y, x, et) us).
Proof.
  induction us as [|[[s t] et] us IH]; intros g g' W D H; [injection H as <-; split; auto; split; [apply ieq_refl|auto]|].
  cbn [foldM] in H. inv_bind H. unfold add_u in E. assert (Dst := D s t et (or_introl eq_refl)). destruct (add_edge_spec _ _ _ _ _ W Dst E) as [W1 [F1 [_ [_ [E1 _]]]]].
  destruct (IH a g' W1) as [W' [I' E']]; auto; [intros s0 t0 e0 Y; apply (D s0 t0 e0); right; auto|].
  split; auto. split; [eapply ieq_trans; [eapply add_edge_ieq; eauto|auto]|].
  intros x y Hxy. destruct (E' x y Hxy) as [Y|[e [Y|Y]]]; [|right; exists e; left; right; auto|right; exists e; right; right; auto].
  destruct (Nat.eq_dec x s) as [->|N1]; [destruct (Nat.eq_dec y t) as [->|N2]; [right; exists et; left; left; auto|]|].
  - left. rewrite <- E1; auto; congruence.
  - destruct (Nat.eq_dec x t) as [->|N3]; [destruct (Nat.eq_dec y s) as [->|N4]; [right; exists et; right; left; auto|]|]; left; rewrite <- E1; auto; congruence.
Qed.
(** what an edge of the rewritten diagram comes from *)
Lemma apply_edges : forall g rem o g', zxok g -> shape g rem o -> apply_rw o = Ok g' ->
  (forall x, In x (vertices g') -> In x (vertices g) /\ ~ In x rem /\ (intp (phase g' x) -> intp (phase (rw_graph o) x))) /\
  (forall x y, edge_type g' x y <> None -> In x (vertices g') /\ (edge_type g x y <> None \/ exists c, In ((x, y), c) (rw_etab o) \/ In ((y, x), c) (rw_etab o))).
Proof.
  intros g rem o g' ZX S H. assert (W := sh_wf _ _ _ S). unfold apply_rw in H. inv_bind H. rename a into g1. inv_bind H. rename a into g2. inv_bind H. rename a into g3.
  rewrite table_units in E. destruct (units_effect _ _ _ W (fun s t et Y => proj1 (units_tabL _ _ _ _ _ (sh_tab _ _ _ S) Y)) E) as [W1 [I1 E1']].
  assert (V1 : vertices g1 = vertices g). { rewrite <- table_units in E. rewrite (proj2 (add_edge_table_vertices _ _ _ W E)). apply (sh_fr _ _ _ S). }
  destruct (remove_edges_spec (rw_edges o) g1 g2 W1) as [W2 [F2 [P2 [_ T2]]]]; auto; [intros s t Y; apply (sh_edges _ _ _ S s t Y)|].
  assert (R3 := remove_vertices_spec _ _ _ W2 E1). assert (W3 := rm_wf _ _ _ R3).
  assert (X4 : (forall x, In x (vertices g') -> In x (vertices g3) /\ phase g' x = phase g3 x) /\ (forall x y, edge_type g' x y <> None -> In x (vertices g') /\ edge_type g3 x y <> None)).
  { destruct (rw_check o).
    - unfold remove_isolated_vertices in H. inv_bind H. destruct a as [rm g4]. destruct (isolated_fold_same _ _ _ E2) as [sc Hs]. cbn [snd] in Hs. subst g4.
      assert (R4 := remove_vertices_spec _ _ _ (on_scalar_wfg (fun _ => sc) g3 W3 : wfg (with_scalar sc g3)) H). split.
      + intros x Hx. rewrite (rm_vs _ _ _ R4), filter_In, negb_true_iff, mem_false in Hx. destruct Hx as [Hx N]. split; auto. rewrite (rm_phase _ _ _ R4) by auto. reflexivity.
      + intros x y Hxy. split; [apply (edge_type_in_l g' x y); auto|]. rewrite (rm_edge _ _ _ R4) in Hxy. destruct (_ || _); [congruence|exact Hxy].
    - injection H as <-. split; auto. intros x y Hxy. split; auto. apply (edge_type_in_l g3 x y); auto. }
  destruct X4 as [V4 E4]. rewrite (sh_rem _ _ _ S) in R3. split.
  - intros x Hx. destruct (V4 x Hx) as [H3 P4]. rewrite (rm_vs _ _ _ R3), filter_In, negb_true_iff, mem_false, (proj1 F2), V1 in H3. destruct H3 as [H3 N]. split; auto. split; auto.
    rewrite P4, (rm_phase _ _ _ R3) by auto. unfold phase at 1. rewrite P2. fold (phase g1 x). apply (I1 x).
  - intros x y Hxy. destruct (E4 x y Hxy) as [Hx Y]. split; auto. rewrite (rm_edge _ _ _ R3) in Y. destruct (_ || _); [congruence|]. rewrite T2 in Y. destruct (existsb _ _); [congruence|].
    destruct (E1' x y Y) as [Y'|[et [Y'|Y']]].
    + left. unfold edge_type in *. rewrite (sh_adj _ _ _ S) in Y'. exact Y'.
    + right. apply units_key in Y'. destruct Y' as [c Y']. eauto.
    + right. apply units_key in Y'. destruct Y' as [c Y']. eauto.
Qed.

(** ** The edges a pivot toggles *)
Definition nbx (g : graph) (v w : nat) (b : list nat) (u : nat) : Prop := edge_type g v u <> None /\ u <> w /\ ~ In u b.
Definition pkey (g : graph) (m : pmatch) (e : edge) : Prop :=
  let '((v0, v1), (b0, b1)) := m in
  (fst e = v0 /\ In (snd e) b1) \/ (fst e = v1 /\ In (snd e) b0) \/
  ((nbx g v0 v1 b0 (fst e) \/ nbx g v1 v0 b1 (fst e)) /\ (nbx g v0 v1 b0 (snd e) \/ nbx g v1 v0 b1 (snd e)) /\
   (nbx g v0 v1 b0 (fst e) \/ nbx g v0 v1 b0 (snd e))).
Lemma pivot_side_ieq : forall g v w b nw n2 st, intp (phase g v) -> ieq g (fst (fst (fst st))) -> ieq g (fst (fst (fst (pivot_side v w b nw n2 st)))).
Proof.
  intros g v w b nw n2 [[[h tab] rem] reme] C N. cbn [fst] in N.
  assert (P : intp (phase h v)) by (apply (N v); auto).
  assert (X : ieq g (if qeqb (phase h v) 0%Qc then h else add_phases n2 (phase h v) (add_phases nw (phase h v) h))).
  { destruct (qeqb _ _); auto. eapply ieq_trans; [exact N|]. eapply ieq_trans; apply ieq_adds; exact P. }
  unfold pivot_side. destruct b as [|u b]; [exact X|]. destruct (match etab_get _ _ with Some c => c | None => (0,0) end) as [? ?]. exact X.
Qed.
Lemma pivot_side_gadj : forall v w b nw n2 st, gadj (fst (fst (fst (pivot_side v w b nw n2 st)))) = gadj (fst (fst (fst st))).
Proof.
  intros v w b nw n2 [[[h tab] rem] reme]. unfold pivot_side.
  assert (X : gadj (if qeqb (phase h v) 0%Qc then h else add_phases n2 (phase h v) (add_phases nw (phase h v) h)) = gadj h) by (destruct (qeqb _ _); rewrite ?add_phases_gadj; auto).
  destruct b as [|u b]; [exact X|]. destruct (match etab_get _ _ with Some c => c | None => (0,0) end) as [? ?]. exact X.
Qed.
Lemma pivot_side_keys : forall v w b nw n2 st e c, In (e, c) (snd (fst (fst (pivot_side v w b nw n2 st)))) ->
  (exists c', In (e, c') (snd (fst (fst st)))) \/ (fst e = w /\ In (snd e) b).
Proof.
  intros v w b nw n2 [[[h tab] rem] reme] e c H. unfold pivot_side in H. destruct b as [|u b]; [left; eauto|].
  destruct (match etab_get _ _ with Some c => c | None => (0,0) end) as [? ?]. cbn [fst snd] in H. apply etab_set_key in H. destruct H as [->|H]; auto. right. simpl; auto.
Qed.
Lemma pivot_keys : forall so g ms o, so_ok so -> wfg g -> (forall m, In m ms -> pv_ok g m) -> pivot so ms g = Ok o ->
  ieq g (rw_graph o) /\ forall e c, In (e, c) (rw_etab o) -> exists m, In m ms /\ pkey g m e.
Proof.
  intros so g ms o SO W HO H. unfold pivot in H. inv_bind H. destruct a as [[[g' tab'] rem'] reme']. injection H as <-. cbn [rw_graph rw_etab].
  set (INV := fun st : graph * etab * list nat * list edge => gadj (fst (fst (fst st))) = gadj g /\ ieq g (fst (fst (fst st))) /\
    forall e c, In (e, c) (snd (fst (fst st))) -> exists m, In m ms /\ pkey g m e).
  assert (X : INV (g', tab', rem', reme')); [|destruct X as [_ X]; exact X].
  refine (StoreProofs.foldM_inv _ _ _ INV ms (g, [], [], []) _ _ _ E); [split; [|split]; [reflexivity|apply ieq_refl|intros e c []]|].
  intros [[[h tab] rem] reme] [[v0 v1] [b0 b1]] st' [A [N K]] Hm E1. cbn [fst snd] in A, N, K. assert (OK := HO _ Hm).
  destruct (pivot_sets_spec so g h v0 v1 b0 b1 SO W A OK) as [n0 [n1 [n2 [S1 [_ [_ [_ [_ [N2 [N0 N1]]]]]]]]]].
  destruct OK as [_ [_ [_ [_ [P0 [P1 _]]]]]]. apply intp_pauli in P0, P1.
  unfold pivot_one in E1. rewrite S1 in E1. cbn [bind] in E1. cbv zeta in E1.
  match type of E1 with context [pivot_side v1 v0 b1 n0 n2 (pivot_side v0 v1 b0 n1 n2 (?s, tab, rem, reme))] => 
    assert (XA : gadj s = gadj g); [|assert (XI : ieq g s); [|set (s0 := s) in *]] end.
  { destruct b0, b1; match goal with |- context [if ?c then _ else _] => destruct c end; cbn [on_scalar with_scalar gadj]; rewrite add_phases_gadj; exact A. }
  { match goal with |- context [add_phases n2 1%Qc ?h0] => apply ieq_trans with (add_phases n2 1%Qc h0); [eapply ieq_trans; [exact N|eapply ieq_trans; [|apply ieq_adds, intp_1]; apply ieq_ph; reflexivity]|apply ieq_ph] end.
    destruct b0, b1; match goal with |- context [if ?c then _ else _] => destruct c end; reflexivity. }
  clearbody s0.
  assert (YA : gadj (fst (fst (fst (pivot_side v1 v0 b1 n0 n2 (pivot_side v0 v1 b0 n1 n2 (s0, tab, rem, reme)))))) = gadj g) by (rewrite !pivot_side_gadj; exact XA).
  assert (YI : ieq g (fst (fst (fst (pivot_side v1 v0 b1 n0 n2 (pivot_side v0 v1 b0 n1 n2 (s0, tab, rem, reme))))))) by (apply pivot_side_ieq; auto; apply pivot_side_ieq; auto).
  assert (YK : forall e c, In (e, c) (snd (fst (fst (pivot_side v1 v0 b1 n0 n2 (pivot_side v0 v1 b0 n1 n2 (s0, tab, rem, reme)))))) -> exists m, In m ms /\ pkey g m e).
  { intros e c Y. apply pivot_side_keys in Y. destruct Y as [[c' Y]|[Y1 Y2]].
    - apply pivot_side_keys in Y. destruct Y as [[c2 Y]|[Y1 Y2]]; [cbn [fst snd] in Y; eauto|]. exists ((v0, v1), (b0, b1)). split; auto. right. left. auto.
    - exists ((v0, v1), (b0, b1)). split; auto. left. auto. }
  destruct (pivot_side v1 v0 b1 n0 n2 _) as [[[h' t'] r'] e']. injection E1 as <-. cbn [fst snd] in YA, YI, YK. split; [|split]; cbn [fst snd]; [congruence|auto|].
  intros [s t] c Y. apply had_keys in Y. destruct Y as [Y|[c' Y]]; [|eauto].
  exists ((v0, v1), (b0, b1)). split; auto. right. right. unfold nbx. cbn [fst snd].
  rewrite !in_app_iff, !in_prod_iff in Y. destruct Y as [[Y1 Y2]|[[Y1 Y2]|[Y1 Y2]]].
  - apply N0 in Y1. apply N1 in Y2. tauto.
  - apply N1 in Y1. apply N2 in Y2. tauto.
  - apply N0 in Y1. apply N2 in Y2. tauto.
Qed.

(** ** What the matcher checks about the neighbours of a Pauli spider *)
Lemma gadget_scan_first : forall g e ns d, gadget_scan g true e ns = Some d -> forall n, In n ns -> forall f, incident_edges g n = [f] -> ekeq e f = true.
Proof.
  intros g e ns. induction ns as [|n ns IH]; simpl; intros d H u Hu f Hf; [contradiction|].
  destruct (negb _); [discriminate|]. destruct (match incident_edges g n with [f] => _ | _ => _ end) eqn:X; [discriminate|].
  destruct (gadget_scan g true e ns) as [l|]; [|discriminate]. destruct Hu as [<-|Hu]; [|eapply IH; eauto].
  rewrite Hf in X. destruct (ekeq e f); auto; discriminate.
Qed.
Lemma mpg_scan : forall g num cands i disc el gc ms el' gc', wfg g -> noloop g -> wfg gc -> (forall n, neighbors gc n = neighbors g n) ->
  (forall u, In u (vertices g) -> In u (vertices gc) /\ (phase gc u = phase g u \/ phase gc u = 0%Qc)) ->
  (forall e, In e cands -> In e (edges g)) ->
  match_pivot_gadget_loop num i cands disc el gc = Ok (ms, el', gc') ->
  forall v0 w bb, In ((v0, w), bb) ms -> is_pauli (phase g w) = false /\ forall n, In n (neighbors g v0) -> n <> w -> length (neighbors g n) <> 1.
Proof.
  intros g num cands. induction cands as [|e cands IH]; intros i disc el gc ms el' gc' W NL Wc NB PHI HC H; [injection H as <- <- <-; intros ? ? ? []|].
  assert (HC' : forall e, In e cands -> In e (edges g)) by (intros; apply HC; right; auto).
  cbn [match_pivot_gadget_loop] in H. destruct (lim_reached num i); [injection H as <- <- <-; intros ? ? ? []|].
  destruct (emem e disc); [eapply IH; eauto|]. destruct e as [e0 e1].
  assert (IE := HC _ (or_introl eq_refl)). apply in_edges in IE; auto. destruct IE as [I1 I2].
  destruct (negb _); [eapply IH; eauto|].
  destruct (if negb (is_pauli (phase gc e0)) then _ else _) as [[[v0 v1] p1]|] eqn:SEL; [|eapply IH; eauto].
  assert (SW : ((v0,v1) = (e0,e1) \/ (v0,v1) = (e1,e0)) /\ is_pauli (phase gc v1) = false).
  { destruct (is_pauli (phase gc e0)) eqn:Q0; cbn [negb] in SEL; destruct (is_pauli (phase gc e1)) eqn:Q1; try discriminate; injection SEL as <- <- <-; auto. }
  destruct SW as [SW NP].
  assert (IV1 : In v1 (vertices g)).
  { destruct SW as [X|X]; injection X as -> ->; [apply (edge_type_in_l g e1 e0); rewrite (wf_sym g W)|apply (edge_type_in_l g e0 e1)]; auto. }
  destruct (Nat.eqb (length (neighbors gc v1)) 1); [eapply IH; eauto|].
  destruct (gadget_scan gc true (e0,e1) (neighbors gc v0)) as [d0|] eqn:S0; [|eapply IH; eauto].
  destruct (gadget_scan gc false (e0,e1) (neighbors gc v1)) as [d1|] eqn:S1; [|eapply IH; eauto].
  inv_bind H. destruct (add_vertex ZSP (Qcz (-2)) a (Some p1) gc) as [g1 v] eqn:AV. inv_bind H. destruct a0 as [[ms' el1] g2]. injection H as <- <- <-.
  destruct (add_vertex_spec _ _ _ _ _ _ _ Wc AV) as [Ev [W1 [V1 [_ [N1 [_ [P1 _]]]]]]].
  assert (XX := fun Wa Wb Wd => IH _ _ _ _ _ _ _ W NL Wa Wb Wd HC' E0).
  intros x0 w bb [Hm|Hm].
  - injection Hm as <- <- <-. split.
    { destruct (PHI v1 IV1) as [_ [Y|Y]]; [congruence|]. rewrite Y in NP. discriminate. }
    intros n Hn Nw L. assert (S := gadget_scan_first _ _ _ _ S0 n). rewrite NB in S. specialize (S Hn). unfold incident_edges in S. rewrite NB in S.
    destruct (neighbors g n) as [|m [|]] eqn:En; try discriminate. specialize (S _ eq_refl). unfold ekeq in S.
    assert (Nn : n <> v0) by (intros ->; apply neighbors_spec in Hn; rewrite NL in Hn; congruence).
    assert (Em : m = v0). { assert (Y : In v0 (neighbors g n)) by (apply neighbors_spec; rewrite (wf_sym g W); apply neighbors_spec; auto). rewrite En in Y. destruct Y as [->|[]]; auto. }
    subst m. destruct (Nat.ltb_spec n v0); cbn [fst snd] in S; rewrite !andb_true_iff, !Nat.eqb_eq in S; destruct SW as [X|X]; injection X as -> ->; lia.
  - eapply XX; eauto.
    + assert (WP : wfg (set_phase v1 0%Qc g1)). { apply set_phase_wfg; auto. rewrite V1, in_app_iff. left. apply (PHI v1 IV1). } destruct WP. constructor; auto.
    + intros k. change (neighbors g1 k = neighbors g k). rewrite N1. auto.
    + intros u Hu. destruct (PHI u Hu) as [Iu Pu]. split; [change (In u (vertices g1)); rewrite V1, in_app_iff; auto|].
      change (phase (set_phase v1 0%Qc g1) u = phase g u \/ phase (set_phase v1 0%Qc g1) u = 0%Qc). rewrite phase_set_phase. destruct (Nat.eqb_spec u v1); [right; apply qmod2_0|].
      rewrite P1. destruct (Nat.eqb_spec u v); auto. exfalso. subst. exact (fresh_not_in gc Wc Iu).
Qed.

(** ** One round *)
Lemma degree_one : forall g a b, wfg g -> edge_type g a b <> None -> (forall w, edge_type g a w <> None -> w = b) -> length (neighbors g a) = 1.
Proof.
  intros g a b W H Y. assert (X : Permutation (neighbors g a) [b]).
  { apply nodup_same_perm; [apply neighbors_nd, W|constructor; [simpl; tauto|constructor]|]. intros w. rewrite neighbors_spec. simpl. split; [intros Z; left; symmetry; auto|intros [<-|[]]; auto]. }
  apply Permutation_length in X. exact X.
Qed.
Lemma pg_psep : forall so g c ms g2 o g', so_ok so -> zgp g -> (forall e, In e c -> In e (edges g)) -> match_pivot_gadget c None g = Ok (ms, g2) ->
  pivot so ms g2 = Ok o -> apply_rw o = Ok g' -> psep g'.
Proof.
  intros so g c ms g2 o g' SO [Z [GL PS]] HC HM HP HA. assert (ZX := zi_zx g Z). assert (W := zx_wf g ZX). assert (NL := zx_noloop g ZX).
  destruct (match_pivot_gadget_total g c None Z GL HC) as [ms0 [g20 [E0 GR]]]. rewrite HM in E0. injection E0 as <- <-.
  unfold match_pivot_gadget in HM. inv_bind HM. destruct a as [[ms' el'] g1]. inv_bind HM. injection HM as -> ->.
  assert (SC : forall v0 w bb, In ((v0, w), bb) ms -> is_pauli (phase g w) = false /\ forall n, In n (neighbors g v0) -> n <> w -> length (neighbors g n) <> 1).
  { eapply (mpg_scan g None c 0 [] [] g ms el' g1); eauto. }
  apply mpg_loop with (g := g) (mv0 := []) in E; auto; [|exact (zx_ph g ZX)|apply grown_refl; auto].
  destruct E as [G [EL [OK FAR]]]. simpl in G, EL. subst el'. set (mv := map gmv ms) in *.
  assert (SG : forall m, In m mv -> exists a, snd m = [a]).
  { intros m Hm. apply in_map_iff in Hm. destruct Hm as [[[v0 w] bb] [<- Hm]]. destruct (OK _ Hm) as [[_ [_ [_ [_ [_ [_ [a A]]]]]]] _]. simpl in A. subst bb. exists a. reflexivity. }
  destruct (grow_gadget g g1 mv g2 ZX G SG E0) as [Z2 [SM [F [PH [E3 E4]]]]]. assert (W2 := zx_wf g2 Z2).
  destruct (pivot_round_wired so g2 ms SO Z2 (zi_deg g2 (gw_z _ _ _ GR)) (gw_ok _ _ _ GR) (gw_far _ _ _ GR)) as [o' [g0 [A1 [A2 [BD [WR _]]]]]].
  rewrite HP in A1. injection A1 as <-. rewrite HA in A2. injection A2 as <-.
  destruct (pivot_shape so g2 ms SO Z2 (gw_ok _ _ _ GR) (gw_far _ _ _ GR)) as [o' [A1 [SH _]]]. rewrite HP in A1. injection A1 as <-.
  destruct (pivot_keys so g2 ms o SO W2 (gw_ok _ _ _ GR) HP) as [IE KE].
  destruct (apply_edges g2 _ o g' Z2 SH HA) as [VV EE].
  assert (KB : keepb g2 g').
  { apply (keep_step nonzero anyph g2 o g'); auto; [apply SH|eapply pivot_bfix; eauto; first [apply Z2|apply GR]|exact (gw_z _ _ _ GR)|].
    apply (pivot_step_matches so nonzero anyph g2 ms o g'); auto; [apply good_nonzero|apply zxi_any; auto|exact (gw_ok _ _ _ GR)|exact (gw_far _ _ _ GR)]. }
  assert (BF : bfix g2 g') by apply KB.
  assert (ZX' : zxok g') by (apply (zi_zx g'), KB).
  set (rem := flat_map pv_rem ms) in *.
  assert (ROLD : forall v0 w bb, In ((v0, w), bb) ms -> In w rem).
  { intros v0 w bb Hm. destruct (OK _ Hm) as [[_ [_ [_ [_ [_ [_ [a A]]]]]]] _]. cbn [snd] in A. subst bb. apply in_flat_map. exists ((v0, w), ([], [a])). split; auto. simpl; auto. }
  assert (MVI : forall w a, In (w, [a]) mv -> exists v0, In ((v0, w), ([], [a])) ms).
  { intros w a Hm. apply in_map_iff in Hm. destruct Hm as [[[v0 w'] bb] [X Hm]]. destruct (OK _ Hm) as [[_ [_ [_ [_ [_ [_ [a' A]]]]]]] _]. cbn [snd] in A. subst bb. injection X as <- <-. eauto. }
  (* a Pauli spider that survives is an old spider with its old Pauli phase *)
  assert (OLD : forall x, In x (vertices g') -> is_pauli (phase g' x) = true -> In x (vertices g) /\ ~ In x rem /\ is_pauli (phase g x) = true).
  { intros x Hx Px. destruct (VV x Hx) as [Hx2 [Nr X]]. apply intp_pauli, X in Px. apply (IE x) in Px.
    assert (P2 : phase g2 x = phase g1 x) by (unfold phase; rewrite PH; reflexivity). rewrite P2 in Px.
    rewrite (proj1 F), (gr_vs _ _ _ G), in_app_iff in Hx2. destruct Hx2 as [Hx2|Hx2].
    - split; auto. split; auto. apply pauli_intp; [apply (zx_ph g ZX); auto|]. rewrite (gr_ph _ _ _ G) in Px; auto.
      intros Y. apply in_map_iff in Y. destruct Y as [[w ns] [<- Y]]. destruct (SG _ Y) as [a Ha]. cbn [snd] in Ha. subst ns. destruct (MVI _ _ Y) as [v0 Hm]. apply Nr. exact (ROLD _ _ _ Hm).
    - exfalso. apply in_flat_map in Hx2. destruct Hx2 as [[w ns] [Y1 Y2]]. destruct (SG _ Y1) as [a Ha]. cbn [snd] in Ha, Y2. subst ns. destruct Y2 as [<-|[]].
      destruct (gr_mv _ _ _ G _ _ Y1) as [Iw [_ [_ [b [l [M1 [M2 _]]]]]]]. injection M1 as <- <-. rewrite M2 in Px. destruct (MVI _ _ Y1) as [v0 Hm]. destruct (SC _ _ _ Hm) as [NP _].
      apply pauli_intp in Px; [congruence|apply (zx_ph g ZX); auto]. }
  assert (ET2 : forall x z, In x (vertices g) -> ~ In x rem -> edge_type g2 x z <> None -> edge_type g x z <> None).
  { intros x z Ix Nx Hz. destruct (in_dec Nat.eq_dec z (vertices g)) as [Iz|Iz]; [rewrite <- E3; auto|]. exfalso.
    assert (Iz2 : In z (vertices g2)) by (apply (edge_type_in_l g2 z x); rewrite (wf_sym g2 W2); auto).
    rewrite (proj1 F), (gr_vs _ _ _ G), in_app_iff in Iz2. destruct Iz2 as [|Iz2]; [contradiction|]. apply in_flat_map in Iz2. destruct Iz2 as [[w ns] [Y1 Y2]].
    destruct (SG _ Y1) as [a Ha]. cbn [snd] in Ha, Y2. subst ns. destruct Y2 as [<-|[]]. rewrite (wf_sym g2 W2), (E4 _ _ _ Y1) in Hz. destruct (Nat.eqb_spec x w); [|congruence]. subst.
    destruct (MVI _ _ Y1) as [v0 Hm]. apply Nx. exact (ROLD _ _ _ Hm). }
  assert (MS : forall m, In m ms -> exists v0 w a, m = ((v0, w), ([], [a])) /\ In v0 (vertices g) /\ In w (vertices g) /\ v0 <> w /\ ~ In a (vertices g) /\ In w rem).
  { intros [[v0 w] bb] Hm. destruct (OK _ Hm) as [[O1 [_ [_ [_ [_ [_ [a A]]]]]]] _]. cbn [snd] in A. subst bb. exists v0, w, a. split; auto.
    split; [apply (edge_type_in_l g v0 w); auto|]. split; [apply (edge_type_in_l g w v0); rewrite (wf_sym g W); auto|]. split; [intros ->; rewrite NL in O1; auto|]. split; [|eapply ROLD; eauto].
    apply (grown_newv g g1 mv); auto. apply in_flat_map. exists (w, [a]). split; [|simpl; auto]. apply in_map_iff. exists ((v0, w), ([], [a])). auto. }
  assert (ND1 : forall x z v0 w bb, In ((v0, w), bb) ms -> In x (vertices g) -> In v0 (vertices g) -> nbx g2 v0 w z x -> In x (neighbors g v0) /\ x <> w).
  { intros x z v0 w bb Hm Ix Iv [Y1 [Y2 _]]. split; auto. apply neighbors_spec. rewrite <- E3; auto. }
  (* interior stays *)
  assert (INT : forall x, In x (vertices g') -> In x (vertices g) -> ~ In x rem -> interior g' x -> interior g x).
  { intros x Hx Ix Nx HI u Hu. destruct (isB g u) eqn:Bu; auto. exfalso.
    assert (Iu : In u (vertices g)) by (apply (neighbors_in g x); auto). apply neighbors_spec in Hu.
    assert (Tu : vty g u = BOUNDARY) by (unfold isB in Bu; apply vtype_eqb_eq; auto).
    assert (Tu2 : vty g2 u = BOUNDARY) by (rewrite (same_frame_vty g1 g2), (gr_ty _ _ _ G); auto).
    assert (Iu2 : In u (vertices g2)) by (rewrite (proj1 F), (gr_vs _ _ _ G), in_app_iff; auto).
    assert (Y := WR u x Iu2 Tu2). rewrite E3, (wf_sym g W) in Y by auto. specialize (Y Hu). rewrite (proj2 (mem_false _ _) Nx) in Y.
    assert (Eu : edge_type g' u x <> None) by (apply Y; auto).
    assert (Iu' : In u (vertices g')) by (apply (edge_type_in_l g' u x); auto).
    rewrite (wf_sym g' (zx_wf g' ZX')) in Eu. apply neighbors_spec in Eu. apply HI in Eu. unfold isB in Eu. rewrite (bf_ty _ _ BF u Iu'), Tu2 in Eu. discriminate. }
  (* a degree one spider next to a surviving one stays so *)
  assert (ONE : forall x y, edge_type g' x y <> None -> In x (vertices g) -> ~ In x rem -> In y (vertices g) -> ~ In y rem -> edge_type g x y <> None ->
    length (neighbors g x) = 1 -> length (neighbors g' x) = 1).
  { intros x y Exy Ix Nx Iy Ny Eg L. assert (ALL : forall z, edge_type g x z <> None -> z = y).
    { intros z Hz. apply neighbors_spec in Hz. apply neighbors_spec in Eg. destruct (neighbors g x) as [|k [|]]; try discriminate. destruct Hz as [<-|[]], Eg as [<-|[]]. auto. }
    apply (degree_one g' x y (zx_wf g' ZX') Exy). intros z Hz. destruct (EE x z Hz) as [_ [Y|[c0 Y]]]; [apply ALL, ET2; auto|]. exfalso.
    assert (KX : exists m, In m ms /\ (pkey g2 m (x, z) \/ pkey g2 m (z, x))) by (destruct Y as [Y|Y]; destruct (KE _ _ Y) as [m [Y1 Y2]]; eauto).
    clear Y. destruct KX as [m [Hm KX]]. destruct (MS m Hm) as [v0 [w [a [-> [Iv0 [Iw [Nvw [Na Rw]]]]]]]].
    destruct (OK _ Hm) as [[O1 _] _]. destruct (SC _ _ _ Hm) as [_ SC2].
    assert (C1 : nbx g2 v0 w [] x -> False).
    { intros Y. destruct (ND1 x [] v0 w _ Hm Ix Iv0 Y) as [Y1 Y2]. exact (SC2 x Y1 Y2 L). }
    assert (C2 : nbx g2 w v0 [a] x -> False).
    { intros [Y1 _]. rewrite E3, (wf_sym g W) in Y1 by auto. apply ALL in Y1. subst. contradiction. }
    assert (C3 : x = v0 -> False).
    { intros ->. apply ALL in O1. subst. contradiction. }
    unfold pkey in KX. cbn [fst snd] in KX. assert (C4 : In x [a] -> False) by (intros [<-|[]]; auto). cbn [In] in *. tauto. }
  intros x y Tx Ty Px Py Ix' Iy' Exy.
  assert (Hx : In x (vertices g')) by (apply (edge_type_in_l g' x y); auto).
  assert (Eyx : edge_type g' y x <> None) by (rewrite (wf_sym g' (zx_wf g' ZX')); auto).
  assert (Hy : In y (vertices g')) by (apply (edge_type_in_l g' y x); auto).
  destruct (OLD x Hx Px) as [Ix [Nx Px0]]. destruct (OLD y Hy Py) as [Iy [Ny Py0]].
  assert (TY : forall z, In z (vertices g') -> In z (vertices g) -> vty g' z = ZSP -> vty g z = ZSP).
  { intros z Hz Iz T. rewrite (bf_ty _ _ BF) in T by auto. rewrite (same_frame_vty g1 g2), (gr_ty _ _ _ G) in T; auto. }
  destruct (EE x y Exy) as [_ [Y|[c0 Y]]].
  - apply ET2 in Y; auto. assert (Y' : edge_type g y x <> None) by (rewrite (wf_sym g W); auto).
    destruct (PS x y) as [L|L]; auto; [left; apply (ONE x y)|right; apply (ONE y x)]; auto.
  - exfalso. assert (KX : exists m, In m ms /\ (pkey g2 m (x, y) \/ pkey g2 m (y, x))) by (destruct Y as [Y|Y]; destruct (KE _ _ Y) as [m [Y1 Y2]]; eauto).
    clear Y. destruct KX as [m [Hm KX]]. destruct (MS m Hm) as [v0 [w [a [-> [Iv0 [Iw [Nvw [Na Rw]]]]]]]].
    destruct (OK _ Hm) as [[O1 [O2 [O3 [O4 [O5 _]]]]] _]. destruct (SC _ _ _ Hm) as [_ SC2].
    assert (C1 : forall z, In z (vertices g') -> In z (vertices g) -> ~ In z rem -> vty g' z = ZSP -> is_pauli (phase g z) = true -> interior g' z -> nbx g2 v0 w [] z -> False).
    { intros z Hz Iz Nz Tz Pz Hi Y. destruct (ND1 z [] v0 w _ Hm Iz Iv0 Y) as [Y1 Y2].
      destruct (PS v0 z) as [L|L]; auto.
      - intros u Hu. unfold isB. rewrite (O5 u Hu). reflexivity.
      - apply neighbors_spec; auto.
      - apply neighbors_spec in O1. destruct (neighbors g v0) as [|k [|]]; try discriminate. destruct Y1 as [<-|[]], O1 as [<-|[]]. auto.
      - exact (SC2 z Y1 Y2 L). }
    assert (Cx := C1 x Hx Ix Nx Tx Px0 Ix'). assert (Cy := C1 y Hy Iy Ny Ty Py0 Iy').
    unfold pkey in KX. cbn [fst snd] in KX. assert (C4 : In x [a] -> False) by (intros [<-|[]]; auto). assert (C5 : In y [a] -> False) by (intros [<-|[]]; auto). cbn [In] in *. tauto.
Qed.

Theorem pivot_gadget_simp_zgp : forall md g r, zgp g -> run (pivot_gadget_simp md) g r ->
  exists n g', r = Ok (n, g') /\ zgp g' /\ rel g g' /\ (n = 0 -> g' = g).
Proof.
  intros md g r HZ R. apply (simp_totr (ok_edges_so md) (fun c g => match_pivot_gadget (fst c) None g) (fun c => pivot (snd c)) zgp zgp_zx) with (g := g) (r := r); auto.
  clear. intros [c so] g [Z [GL PS]] [Oc SO]. cbn [fst snd] in *.
  assert (HC : forall e, In e c -> In e (edges g)) by (intros e He; exact (cand_ok_in _ _ _ _ _ Oc He)).
  destruct (match_pivot_gadget_total g c None Z GL HC) as [ms [g2 [E G]]].
  destruct (once_growr so g (fun g => match_pivot_gadget c None g) ms g2 SO (conj Z GL) E G) as [b [g' [E' [ZG [RL N]]]]]. exists b, g'. split; auto. split; auto.
  split; [apply ZG|]. split; [apply ZG|]. apply simp_once_inv in E'. destruct E' as [ms' [g1 [E1 H]]]. rewrite E in E1. injection E1 as <- <-.
  destruct H as [[-> [-> ->]]|[NE [-> [o [E1 E2]]]]]; [rewrite (gw_nil _ _ _ G eq_refl); auto|].
  exact (pg_psep so g c ms g2 o g' SO (conj Z (conj GL PS)) HC E E1 E2).
Qed.
