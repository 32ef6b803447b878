(** Supplementarity: one round and the whole of supplementarity_simp. *)
From Coq Require Import Reals ZArith QArith Qcanon List Bool Arith Lia Lra Permutation FunctionalExtensionality.
From Verif Require Import LinModel LinProofs CNum Base ScalarModel ScalarProofs GraphModel GraphSem SumLemmas GraphProofs GraphOps RulesModel RuleLemmas
  SpiderProofs IsoProofs IdProofs LcompProofs PivotProofs PivotMatch GadgetProofs GrowProofs StoreProofs ColorProofs SimpModel SimpProofs PairProofs RuleShape TermProofs InvProofs RoundProofs BfixProofs TotalProofs GrowTotal
  FullTotal Decide RunEx ZXFacts IsoExact RedFacts GateModel CircSpec GateProofs GateMask AmpProofs CircGraphModel CircGraphProofs CircGraphFacts VerifyProofs GraphAlgModel GraphAlgProofs GraphAlgFacts
  ComposeProofs ApplyProofs ExtractModel ExtractSem ExtractMap ExtractClean ExtractCz ExtractFront ExtractNbrs TidyModel TidySub CopyProofs CopyFacts SuppProofs.
Import ListNotations.
Open Scope nat_scope.

Definition smr (m : smatch) : list nat := [smv m; smw m].
Definition sfits (P rem : list nat) (m : smatch) : Prop := (forall u, In u (smr m) \/ In u (smn m) -> ~ In u rem) /\ ~ In (smv m) P /\ ~ In (smw m) P.
Lemma supp_fold : forall ms g0 P g rem, zinv g0 -> glike g0 -> sst g0 P g -> (forall m, In m ms -> sm_ok g0 m /\ sfits P rem m) -> ForallOrdPairs sfar ms -> NoDup rem ->
  exists g', fold_left supp_one ms (g, rem) = (g', rem ++ flat_map smr ms) /\ sst g0 (P ++ flat_map smn ms) g' /\ NoDup (rem ++ flat_map smr ms) /\
  forall y, semL (without (rem ++ flat_map smr ms) (vertices g0)) g' y = semL (without rem (vertices g0)) g y.
Proof.
  induction ms as [|m ms IH]; intros g0 P g rem Z GL S H FO ND.
  - exists g. cbn [flat_map]. rewrite !app_nil_r. auto.
  - inversion FO as [|? ? FA FO']; subst. rewrite Forall_forall in FA. destruct (H m (or_introl eq_refl)) as [OK [F1 [F2 F3]]].
    assert (D : smv m <> smw m) by (destruct m as [[[v w] two] ns]; destruct OK as [_ [_ [X _]]]; exact X).
    destruct (supp_one_ok g0 P g rem m) as [g1 [E [S1 V1]]]; auto; try (apply F1; left; simpl; auto; fail).
    destruct (IH g0 (P ++ smn m) g1 (rem ++ smr m)) as [g' [E' [S' [N' V']]]]; auto.
    + intros m' Hm'. destruct (H m' (or_intror Hm')) as [OK' [G1 [G2 G3]]]. destruct (FA m' Hm') as [Q1 [Q2 Q3]]. split; auto. split.
      * intros u Hu X. apply in_app_iff in X. destruct X as [X|X]; [exact (G1 u Hu X)|]. destruct (Q1 u Hu). destruct X as [X|[X|[]]]; congruence.
      * rewrite !in_app_iff. split; tauto.
    + apply RuleLemmas.nodup_app; auto. { constructor; [simpl; intuition|constructor; [simpl; tauto|constructor]]. } intros u Hu X. apply (F1 u); auto.
    + exists g'. cbn [flat_map fold_left]. rewrite E. rewrite !app_assoc. split; [exact E'|]. split; [exact S'|]. split; [exact N'|]. intros y. rewrite V'. apply V1.
Qed.

(** removing isolated vertices establishes the domain of supplementarity *)
Lemma isolated_sdom : forall g g', zinv g -> glike g -> remove_isolated_vertices g = Ok g' -> sdom g'.
Proof.
  intros g3 g4 ZI3 GL3 E. assert (Z3 := zi_zx _ ZI3). destruct (isolated_ok g3 Z3 (zi_deg _ ZI3)) as [g5 [rem4 [s4 [E4 [R4 [N4 C4]]]]]]. rewrite E4 in E. injection E as ->.
  assert (W3 := zx_wf _ Z3). destruct (isolated_bfix _ _ W3 E4) as [W4 BF4]. destruct (isolated_exact g3 g4 Z3 E4) as [X1 [X2 X3]].
  destruct (remove_isolated_good nonzero anyph g3 g4 good_nonzero Z3) as [[Z4 [GI4 [GO4 _]]] _]; auto. { intros u _. exact I. }
  split; [|split].
  - eapply zinv_bfix; eauto. apply (closed_bdeg rem4 (with_scalar s4 g3)); auto; try exact (on_scalar_wfg (fun _ => s4) g3 W3). apply ZI3.
  - apply (removed_glike rem4 (with_scalar s4 g3)); auto; try (apply glike_scalar; auto).
  - intros v Hv NC EN. apply X1 in Hv. destruct Hv as [Hv NIv]. destruct (X3 v NIv) as [_ PH]. rewrite PH in NC.
    assert (Tv : vty g3 v <> BOUNDARY). { intros T. rewrite (zi_ph _ ZI3 v Hv T) in NC. discriminate. }
    destruct (neighbors g3 v) as [|u l] eqn:En; [apply NIv; split; auto|].
    assert (Eu : edge_type g3 v u <> None) by (apply neighbors_spec; rewrite En; simpl; auto).
    assert (NIu : ~ isolated g3 u).
    { intros [Tu [Nu|[w [Nu [Nw Tw]]]]].
      - assert (X : In v (neighbors g3 u)) by (apply neighbors_spec; rewrite (wf_sym g3 W3); auto). rewrite Nu in X. destruct X.
      - assert (X : In v (neighbors g3 u)) by (apply neighbors_spec; rewrite (wf_sym g3 W3); auto). rewrite Nu in X. destruct X as [->|[]]. apply NIv. split; auto. right. exists u. auto. }
    assert (X : In u (neighbors g4 v)) by (apply neighbors_spec; rewrite X2; auto). rewrite EN in X. destruct X.
Qed.
Lemma supp_round : forall g ms, zinv g -> glike g -> (forall m, In m ms -> sm_ok g m) -> ForallOrdPairs sfar ms ->
  exists o g', apply_supplementarity ms g = Ok o /\ apply_rw o = Ok g' /\ sdom g' /\ rel g g' /\ (ms <> [] -> length (vertices g') < length (vertices g)).
Proof.
  intros g ms Z GL OK FO. assert (ZX := zi_zx _ Z). assert (W := zx_wf _ ZX).
  destruct (supp_fold ms g [] g [] Z GL) as [g1 [E [S [ND V]]]]; auto.
  { apply sst_refl; auto. } { intros m Hm. split; auto. unfold sfits. simpl. auto. } { constructor. }
  cbn [app] in *. set (rem := flat_map smr ms) in *.
  exists (mkRw g1 [] rem [] true). unfold apply_supplementarity. rewrite E.
  assert (RM : forall u, In u rem -> In u (vertices g) /\ vty g u = ZSP /\ forall b, vty g b = BOUNDARY -> edge_type g u b = None).
  { intros u Hu. apply in_flat_map in Hu. destruct Hu as [[[[v w] two] ns] [Hm Hu]]. destruct (sm_facts g v w two ns Z GL (OK _ Hm)) as [Tv [Tw [Hn [_ [_ [Ho _]]]]]]. destruct (OK _ Hm) as [Iv [Iw _]].
    assert (BB : forall b, vty g b = BOUNDARY -> edge_type g v b = None /\ edge_type g w b = None).
    { intros b Tb. apply Ho; [congruence|congruence|]. intros X. apply Hn in X. destruct X as [_ [X _]]. congruence. }
    destruct Hu as [<-|[<-|[]]]; cbn [smv smw]; split; auto; split; auto; intros b Tb; apply BB; auto. }
  assert (W1 := ss_wf _ _ _ S). assert (V1 := sst_vs _ _ _ S).
  assert (NL1 : noloop g1) by (intros u; rewrite (sst_edge _ _ _ _ _ S); apply ZX).
  destruct (remove_vertices_ok rem g1 W1 NL1 ND) as [g3 E3]. { intros u Hu. rewrite V1. apply RM; auto. }
  assert (R := remove_vertices_spec _ _ _ W1 E3).
  assert (I3 : forall u, In u (vertices g3) <-> In u (vertices g) /\ ~ In u rem) by (intros u; rewrite (rm_vs _ _ _ R), filter_In, negb_true_iff, mem_false, V1; tauto).
  assert (Z1 : zxok g1).
  { constructor; auto.
    - intros u Hu. rewrite (sst_ty _ _ _ _ S). rewrite V1 in Hu. apply ZX; auto.
    - apply (ss_all _ _ _ S in02); [apply in02_closed|]. exact (zx_ph _ ZX).
    - destruct (ss_fr _ _ _ S) as [_ [_ [GI [GO _]]]]. rewrite GI, GO, V1. intros u Hu. unfold isB. rewrite (sst_ty _ _ _ _ S). apply (zx_io _ ZX); auto. }
  destruct (removed_zxok rem g1 g3 Z1 R) as [Z3 [GI3 GO3]]. { intros u Hu. unfold isB. rewrite (sst_ty _ _ _ _ S). destruct (RM u Hu) as [_ [T _]]. rewrite T. auto. }
  assert (BF1 : bfix g g1).
  { constructor.
    - intros u Hu. rewrite <- V1. auto. - intros u _. apply (sst_ty _ _ _ _ S).
    - intros u Hu T. apply (ss_ph _ _ _ S). intros X. apply (ss_P _ _ _ S) in X. destruct X. congruence.
    - intros u _. destruct (ss_fr _ _ _ S) as [_ [_ [_ [_ [_ [_ X]]]]]]. rewrite X. auto. }
  destruct (remove_vertices_bfix _ _ _ W1 E3) as [_ BF3]. assert (BF : bfix g g3) by (eapply bfix_trans; eauto).
  assert (FI : ginputs g1 = ginputs g /\ goutputs g1 = goutputs g) by (destruct (ss_fr _ _ _ S) as [_ [_ [A [B _]]]]; auto). destruct FI as [GI1 GO1].
  assert (D3 : bdeg g3).
  { intros b Hb Tb. rewrite (bf_ty _ _ BF) in Tb by auto. assert (Ib : In b (vertices g)) by (apply I3; auto). destruct (zi_deg _ Z b Ib Tb) as [u0 Hu0]. exists u0. intros t.
    rewrite (rm_edge _ _ _ R), (sst_edge _ _ _ _ _ S), (proj2 (mem_false b rem)) by (apply I3; auto). cbn [orb]. destruct (mem t rem) eqn:M; [|apply Hu0].
    apply mem_spec in M. destruct (RM t M) as [_ [_ X]]. specialize (X b Tb). rewrite <- Hu0, (wf_sym g W), X. tauto. }
  assert (ZI3 : zinv g3) by (eapply zinv_bfix; eauto; congruence).
  assert (GL1 : glike g1). { split; [intros u Hu; rewrite (sst_ty _ _ _ _ S); apply GL; rewrite <- V1; auto|]. intros u t e. rewrite (sst_edge _ _ _ _ _ S), !(sst_ty _ _ _ _ S). apply GL. }
  assert (GL3 := removed_glike _ _ _ R GL1).
  assert (SM : forall y, sem g3 y = sem g y).
  { intros y. rewrite (semL_removed _ _ _ _ R), V1, V, sem_semL. f_equal. unfold without. apply filter_true. intros; auto. }
  destruct (isolated_ok g3 Z3 D3) as [g4 [rem4 [s4 [E4 [R4 [N4 C4]]]]]]. exists g4. split; [reflexivity|].
  assert (AR : apply_rw (mkRw g1 [] rem [] true) = Ok g4). { unfold apply_rw. cbn [rw_etab rw_graph rw_edges rw_verts rw_check add_edge_table remove_edges foldM]. cbn. rewrite E3. cbn [bind]. exact E4. }
  split; auto. destruct (isolated_bfix _ _ (zx_wf _ Z3) E4) as [W4 BF4].
  assert (S4 : forall K Q, good K Q -> allph Q g3 -> step_k K g3 g4 /\ allph Q g4) by (intros K Q G A; apply (remove_isolated_good K Q g3 g4); auto).
  destruct (S4 nonzero anyph good_nonzero) as [[Z4 [GI4 [GO4 _]]] _]. { intros u _. exact I. }
  split; [apply (isolated_sdom g3); auto|split].
  - intros K Q G A. assert (A3 : allph Q g3). { eapply allph_removed; [exact R|]. apply (ss_all _ _ _ S); auto. destruct G as [_ [[X _] _]]. exact X. }
    destruct (S4 K Q G A3) as [[Z4' [_ [_ [k [Kk S']]]]] A4]. split; auto. split; auto. split; [congruence|]. split; [congruence|]. exists k. split; auto. intros y. rewrite S', SM. reflexivity.
  - intros NE. assert (L4 : length (vertices g4) <= length (vertices g3)) by (apply remove_isolated_len; auto; apply R).
    assert (L3 : length (vertices g3) < length (vertices g)); [|lia]. rewrite (rm_vs _ _ _ R), V1.
    destruct ms as [|m ms]; [congruence|]. destruct (RM (smv m)) as [I _]; [unfold rem; simpl; auto|].
    apply (filter_len_lt (fun _ => true) (fun v => negb (mem v rem)) (vertices g) (vertices g) (smv m)) in I; auto; [|apply wf_nd; auto|].
    + rewrite (filter_true nat (fun _ => true)) in I by auto. exact I.
    + intros u Hu X. split; auto. split; auto. intros ->. rewrite negb_true_iff, mem_false in X. apply X. unfold rem. simpl. auto.
Qed.

Lemma supp_once : forall c g, sdom g -> ok_vertices_so AllC g c ->
  exists b g', simp_once (fun g => Ok (match_supplementarity (snd c) (fst c) g, g)) apply_supplementarity g = Ok (b, g') /\ sdom g' /\ rel g g' /\
  (if b then length (vertices g') < length (vertices g) else g' = g /\ match_supplementarity (snd c) (fst c) g = []).
Proof.
  intros [c so] g Z [Oc SO]. cbn [fst snd] in *. destruct Z as [Z [GL NI]]. assert (ZX := zi_zx _ Z). assert (W := zx_wf _ ZX). 
  destruct (match_supp_ok so g SO W (zx_noloop _ ZX) NI c [] [] [] []) as [H1 H2].
  { exact (cand_ok_nd _ _ _ _ Oc (wf_nd g W)). } { intros v Hv; exact (cand_ok_in _ _ _ _ _ Oc Hv). } { intros k l w []. }
  { constructor; [intros u []|intros u t []|intros u []|intros u []]. }
  fold (match_supplementarity so c g) in H1, H2. unfold simp_once. cbn [bind]. destruct (match_supplementarity so c g) as [|m ms] eqn:EM.
  - exists false, g. split; auto. split; [split; auto|]. split; [apply rel_refl; auto|]. auto.
  - rewrite <- EM in *. destruct (supp_round g (match_supplementarity so c g)) as [o [g' [E1 [E2 [Z' [M S]]]]]]; auto; [intros m' Hm'; apply H1; auto|].
    rewrite E1. cbn [bind]. rewrite E2. cbn [bind]. exists true, g'. split; auto. split; auto. split; auto. apply S. congruence.
Qed.

(** ** Nothing is missed *)
(** two non-Clifford spiders with the same neighbours that supplementarity removes *)
Definition same_nbrs (g : graph) (v w : nat) : Prop := forall u, u <> v -> u <> w -> (edge_type g v u <> None <-> edge_type g w u <> None).
Definition odd_multiple (q : Qc) : Prop := exists k : Z, q = (Qcz (2 * k) + 1)%Qc.
Definition even_multiple (q : Qc) : Prop := exists k : Z, q = Qcz (2 * k).
Definition supp_pair (g : graph) (v w : nat) : Prop :=
  v <> w /\ In v (vertices g) /\ In w (vertices g) /\ non_clifford (phase g v) = true /\ non_clifford (phase g w) = true /\ same_nbrs g v w /\
  ((edge_type g v w = None /\ (odd_multiple (phase g v - phase g w) \/ odd_multiple (phase g v + phase g w))) \/
   (edge_type g v w <> None /\ (odd_multiple (phase g v - phase g w) \/ even_multiple (phase g v + phase g w)))).

Lemma even_pi_spec : forall q, even_pi q = true <-> even_multiple q.
Proof.
  intros q. unfold even_pi. rewrite qeqb_eq. rewrite <- qmod2_0, qmod2_eq_iff. split; intros [n E]; exists n; rewrite E; ring.
Qed.
Lemma odd_pi_spec : forall q, odd_pi q = true <-> odd_multiple q.
Proof.
  intros q. unfold odd_pi. rewrite qeqb_eq. assert (E1 : qmod2 1%Qc = 1%Qc) by (apply qmod2_id; unfold Qle, Qlt; simpl; lia). rewrite <- E1, qmod2_eq_iff. split; intros [n E]; exists n; rewrite E; ring.
Qed.
Lemma par_get_append : forall k k' v d, par_get k' (par_append k v d) = (if set_eqb k' k then Some (match par_get k' d with Some l => l ++ [v] | None => [v] end) else par_get k' d).
Proof.
  intros k k' v d. destruct (set_eqb k' k) eqn:E.
  - induction d as [|[k2 l2] d IH]; cbn [par_append par_get]; [rewrite E; auto|]. destruct (set_eqb k k2) eqn:F; cbn [par_get].
    + assert (X : set_eqb k' k2 = true) by (apply set_eqb_spec; intros u; rewrite (proj1 (set_eqb_spec _ _) E u); apply set_eqb_spec; auto). rewrite X. auto.
    + assert (X : set_eqb k' k2 = false). { destruct (set_eqb k' k2) eqn:X; auto. rewrite <- F. symmetry. apply set_eqb_spec. intros u. rewrite <- (proj1 (set_eqb_spec _ _) E u). apply set_eqb_spec; auto. } rewrite X. auto.
  - induction d as [|[k2 l2] d IH]; cbn [par_append par_get]; [rewrite E; auto|]. destruct (set_eqb k k2) eqn:F; cbn [par_get].
    + assert (X : set_eqb k' k2 = false). { destruct (set_eqb k' k2) eqn:X; auto. rewrite <- E. symmetry. apply set_eqb_spec. intros u. rewrite (proj1 (set_eqb_spec _ _) F u). apply set_eqb_spec; auto. } rewrite X. auto.
    + rewrite IH. auto.
Qed.
Lemma match_supp_none : forall so g, set_order so -> wfg g -> noloop g -> forall cands par done, match_supp_loop so g cands [] [] par = [] -> incl cands (vertices g) ->
  (forall w, In w done -> non_clifford (phase g w) = true -> exists l, par_get (neighbors g w) par = Some l /\ In w l) ->
  (forall v w, In v done -> In w (vertices g) -> v <> w -> edge_type g v w <> None -> ~ supp_pair g v w) ->
  (forall v w, In v done -> In w done -> edge_type g v w = None -> ~ supp_pair g v w) ->
  (forall v w, In v (done ++ cands) -> In w (vertices g) -> v <> w -> edge_type g v w <> None -> ~ supp_pair g v w) /\
  (forall v w, In v (done ++ cands) -> In w (done ++ cands) -> edge_type g v w = None -> ~ supp_pair g v w).
Proof.
  intros so g SO W NL. induction cands as [|v cands IH]; intros par done E IC HP H1 H2.
  - rewrite app_nil_r. auto.
  - replace (done ++ v :: cands) with ((done ++ [v]) ++ cands) by (rewrite <- app_assoc; reflexivity).
    assert (IC' : incl cands (vertices g)) by (intros z Hz; apply IC; simpl; auto). assert (Iv : In v (vertices g)) by (apply IC; simpl; auto).
    assert (SYM : forall a b, supp_pair g a b -> supp_pair g b a).
    { intros a b [D [Ia [Ib [Ca [Cb [SN X]]]]]]. split; auto. split; auto. split; auto. split; auto. split; auto. split; [intros u U1 U2; symmetry; apply SN; auto|].
      assert (OM : odd_multiple (phase g a - phase g b) -> odd_multiple (phase g b - phase g a)).
      { intros [k E']. exists (-k - 1)%Z. replace (phase g b - phase g a)%Qc with (- (phase g a - phase g b))%Qc by ring. rewrite E'. replace (2 * (- k - 1))%Z with (- (2 * k) + (-1 + -1))%Z by lia. rewrite !Qcz_add, Qcz_opp. change (Qcz (-1)) with (- (1))%Qc. ring. }
      rewrite (wf_sym g W b a), (Qcplus_comm (phase g b)). intuition. }
    cbn [match_supp_loop] in E. change (nmem v []) with false in E. cbv iota in E. destruct (non_clifford (phase g v)) eqn:NC; cbn [negb] in E.
    2:{ apply (IH par); auto.
      - intros w Hw C. apply in_app_iff in Hw. destruct Hw as [Hw|[<-|[]]]; [auto|congruence].
      - intros a w Ha Iw D Ed. apply in_app_iff in Ha. destruct Ha as [Ha|[<-|[]]]; auto. intros [_ [_ [_ [X _]]]]. congruence.
      - intros a w Ha Hw Ed. apply in_app_iff in Ha, Hw. destruct Ha as [Ha|[<-|[]]]; [destruct Hw as [Hw|[<-|[]]]|]; auto; intros [_ [_ [_ [X [Y _]]]]]; congruence. }
    assert (EX : existsb (fun u : nat => nmem u []) (neighbors g v) = false). { destruct (existsb _ _) eqn:X; auto. apply existsb_exists in X. destruct X as [u [_ X]]. discriminate. }
    rewrite EX in E. destruct (match par_get (neighbors g v) par with Some l => find (fun w => odd_pi (phase g v - phase g w)%Qc || odd_pi (phase g v + phase g w)%Qc) l | None => None end) as [w0|] eqn:EF; [discriminate|].
    match type of E with (if ?b then _ else _) = _ => replace b with false in E by (destruct (par_get (neighbors g v) (par_append (neighbors g v) v par)) as [[|? [|]]|]; reflexivity) end.
    destruct (find _ (so (neighbors g v))) as [w|] eqn:FI; [discriminate|].
    apply (IH (par_append (neighbors g v) v par)); auto.
    + intros w Hw C. rewrite par_get_append. apply in_app_iff in Hw. destruct (set_eqb (neighbors g w) (neighbors g v)) eqn:SE.
      * destruct Hw as [Hw|[<-|[]]].
        -- destruct (HP w Hw C) as [l [-> Hl]]. eexists. split; [reflexivity|]. apply in_app_iff; auto.
        -- destruct (par_get (neighbors g v) par); eexists; (split; [reflexivity|]); [apply in_app_iff; simpl; auto|simpl; auto].
      * destruct Hw as [Hw|[<-|[]]]; [auto|]. exfalso. assert (X : set_eqb (neighbors g v) (neighbors g v) = true) by (apply set_eqb_spec; tauto). congruence.
    + intros a w Ha Iw D Ed SP. apply in_app_iff in Ha. destruct Ha as [Ha|[<-|[]]]; [exact (H1 a w Ha Iw D Ed SP)|].
      destruct SP as [_ [_ [_ [_ [Cw [SN X]]]]]]. destruct X as [[X _]|[_ X]]; [congruence|].
      assert (Hw : In w (so (neighbors g v))) by (apply (Permutation_in _ (Permutation_sym (SO _))); apply neighbors_spec; auto).
      assert (F := find_none _ _ FI w Hw). cbn in F. rewrite Cw in F. cbn [andb negb] in F.
      assert (SD : symdiff_len (neighbors g v) (neighbors g w) = 2).
      { unfold symdiff_len, setminus.
        assert (A : Permutation (filter (fun u => negb (nmem u (neighbors g w))) (neighbors g v)) [w]).
        { apply nodup_same_perm; [apply NoDup_filter, neighbors_nd; auto|constructor; [simpl; tauto|constructor]|]. intros u. rewrite filter_In, negb_true_iff, nmem_false, !neighbors_spec. simpl. split.
          - intros [A B]. left. destruct (Nat.eq_dec u w); auto. exfalso. apply B. apply SN; auto. intros ->. rewrite NL in A. congruence.
          - intros [<-|[]]. split; [auto|]. rewrite NL. tauto. }
        assert (B : Permutation (filter (fun u => negb (nmem u (neighbors g v))) (neighbors g w)) [v]).
        { apply nodup_same_perm; [apply NoDup_filter, neighbors_nd; auto|constructor; [simpl; tauto|constructor]|]. intros u. rewrite filter_In, negb_true_iff, nmem_false, !neighbors_spec. simpl. split.
          - intros [A0 B]. left. destruct (Nat.eq_dec u v); auto. exfalso. apply B. apply SN; auto. intros ->. rewrite NL in A0. congruence.
          - intros [<-|[]]. split; [rewrite (wf_sym g W); auto|]. rewrite NL. congruence. }
        rewrite (Permutation_length A), (Permutation_length B). reflexivity. }
      rewrite SD in F. cbn [Nat.eqb andb] in F. apply orb_false_iff in F. destruct F as [F1 F2]. rewrite <- odd_pi_spec, <- even_pi_spec in X. destruct X; congruence.
    + assert (V : forall w, In w done -> edge_type g v w = None -> ~ supp_pair g v w).
      { intros w Hw Ed SP. destruct SP as [D [_ [Iw [_ [Cw [SN X]]]]]]. destruct X as [[_ X]|[X _]]; [|congruence]. destruct (HP w Hw Cw) as [l [PL Il]].
        assert (SE : forall u, In u (neighbors g v) <-> In u (neighbors g w)).
        { intros u. rewrite !neighbors_spec. destruct (Nat.eq_dec u v) as [->|U1]; [rewrite NL, (wf_sym g W w v), Ed; tauto|]. destruct (Nat.eq_dec u w) as [->|U2]; [rewrite NL, Ed; tauto|]. apply SN; auto. }
        assert (PG : forall d, par_get (neighbors g v) d = par_get (neighbors g w) d).
        { intros d. induction d as [|[k2 l2] d IHd]; auto. cbn [par_get]. rewrite IHd. replace (set_eqb (neighbors g v) k2) with (set_eqb (neighbors g w) k2); auto.
          apply eq_true_iff_eq. rewrite !set_eqb_spec. split; intros Y u; [rewrite SE|rewrite <- SE]; auto. }
        rewrite PG, PL in EF. assert (F := find_none _ _ EF w Il). cbn in F. apply orb_false_iff in F. rewrite <- !odd_pi_spec in X. destruct F, X; congruence. }
      intros a w Ha Hw Ed. apply in_app_iff in Ha, Hw. destruct Ha as [Ha|[<-|[]]].
      * destruct Hw as [Hw|[<-|[]]]; auto. intros SP. apply (V a); auto. rewrite (wf_sym g W). auto.
      * destruct Hw as [Hw|[<-|[]]]; auto. intros [X _]. congruence.
Qed.

Theorem supp_simp_halts : forall g, sdom g -> halts supplementarity_simp g.
Proof.
  intros g Z. unfold supplementarity_simp. apply (simp_halts _ _ _ sdom (fun g => length (vertices g))); auto. intros c h b h' Zh Oc E. destruct (supp_once c h Zh Oc) as [b' [g' [E' [Z' [_ M]]]]].
  rewrite E' in E. injection E as <- <-. split; auto. destruct b'; auto. apply M.
Qed.
Lemma live_supp : live supplementarity_simp.
Proof. apply live_simp. intros g. exists (vertices g, fun l => l). split; [apply Permutation_refl|]. intros l. apply Permutation_refl. Qed.
Theorem supp_simp_ok : forall g, sdom g -> halts supplementarity_simp g /\ (exists r, run supplementarity_simp g r) /\
  forall r, run supplementarity_simp g r -> exists n g', r = Ok (n, g') /\ sdom g' /\ map_kept g g' /\ (forall v w, ~ supp_pair g' v w) /\ (n = 0 -> g' = g) /\ (n > 0 -> length (vertices g') < length (vertices g)).
Proof.
  intros g Z. assert (H := supp_simp_halts g Z). split; auto. split; [apply live_supp; auto|]. intros r R.
  destruct (simp_totr (ok_vertices_so AllC) (fun c g => Ok (match_supplementarity (snd c) (fst c) g, g)) (fun _ => apply_supplementarity) sdom) with (g := g) (r := r) (3 := Z) (4 := R) as [n [g' [-> [Z' [RL N]]]]].
  { intros h Zh. apply Zh. }
  { intros c h Zh Oc. destruct (supp_once c h Zh Oc) as [b' [g' [E' [Z' [RL M]]]]]. exists b', g'. split; auto. split; auto. split; auto. intros ->. apply M. }
  exists n, g'. split; auto. split; auto. split; [apply rel_kept; auto|].
  destruct (simp_result (ok_vertices_so AllC) (fun c g => Ok (match_supplementarity (snd c) (fst c) g, g)) (fun _ => apply_supplementarity) sdom (fun g => length (vertices g))) with (g := g) (n := n) (g' := g') (2 := Z) (3 := R) as [_ [M [[c so] [[Oc SO] E]]]].
  { intros c h b h' Zh Oc E. destruct (supp_once c h Zh Oc) as [b' [g2 [E' [Z2 [_ M]]]]]. rewrite E' in E. injection E as <- <-. split; auto. destruct b'; auto. apply M. }
  split; [|split; [auto|intros X; destruct M as [[M _]|M]; [lia|apply M]]].
  cbn [fst snd] in *. injection E as E. destruct Z' as [ZI _]. assert (W := zx_wf _ (zi_zx _ ZI)).
  destruct (match_supp_none so g' SO W (zx_noloop _ (zi_zx _ ZI)) c [] []) as [H1 H2]; auto; try (intros; contradiction).
  { intros v Hv; exact (cand_ok_in _ AllC _ _ _ Oc Hv). }
  cbn [app] in *. intros v w SP. assert (PC : forall u, In u (vertices g') -> In u c) by (intros u Hu; apply (Permutation_in _ (Permutation_sym Oc)); auto).
  assert (SP' := SP). destruct SP' as [D [Iv [Iw _]]]. destruct (edge_type g' v w) eqn:Ed.
  - apply (H1 v w); auto. congruence.
  - apply (H2 v w); auto.
Qed.

(** ** Three isolated spiders: the same spider is matched twice *)
Definition ex_three : graph := mkgraph [(ZSP, frac 1 4); (ZSP, frac 5 4); (ZSP, frac 5 4)] [] [] [].
Theorem supp_raises_refuted : exists g e, zinv g /\ glike g /\ allph quarter g /\ run supplementarity_simp g (Err e).
Proof.
  exists ex_three, KeyError. assert (Z : zinv ex_three) by (apply zinvb_ok; vm_compute; reflexivity). split; auto.
  split; [apply RedFacts.glikeb_ok; [apply Z| |]; vm_compute; reflexivity|]. split; [apply allqb_ok; vm_compute; reflexivity|].
  apply LR_err. left. exists KeyError. split; [|reflexivity]. exists (vertices ex_three, id_so). split; [split; [apply Permutation_refl|exact id_so_ok]|].
  vm_compute. reflexivity.
Qed.
