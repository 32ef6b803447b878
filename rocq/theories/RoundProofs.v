(** One round of every simplifier: no exception, and the invariants survive. *)
From Coq Require Import Reals ZArith QArith Qcanon List Bool Arith Lia Permutation.
From Verif Require Import CNum Base ScalarModel ScalarProofs GraphModel GraphSem SumLemmas GraphProofs GraphOps StoreProofs
  RulesModel RuleLemmas SpiderProofs IsoProofs IdProofs LcompProofs PivotProofs GrowProofs PivotMatch GadgetProofs
  SimpModel ColorProofs SimpProofs PairProofs RuleShape InvProofs.
Import ListNotations.
Open Scope nat_scope.

(** the table has no plain edge between Z spiders *)
Definition zzt (g : graph) (tab : etab) : Prop := forall s t, vty g s = ZSP -> vty g t = ZSP -> fst (cnt (s, t) tab) = 0.
Lemma zzt_zzh : forall g tab, tab_nd tab -> zzt g tab -> zzh g (units tab).
Proof.
  intros g tab ND H s t et Hu Ts Tt. assert (X := units_cnt tab s t et ND Hu). destruct et; auto. rewrite H in X by auto. lia.
Qed.
Lemma zzt_had : forall g e tab, zzt g tab -> zzt g (etab_had e tab).
Proof.
  intros g e tab H s t Ts Tt. unfold etab_had. rewrite cnt_set. destruct (ekeq (s, t) e); auto.
Qed.
Lemma fold_had_touch : forall b es tab, (forall e, In e es -> ehit b e = false) ->
  ttouch b (fold_left (fun tab e => etab_had e tab) es tab) = ttouch b tab.
Proof.
  induction es as [|e es IH]; intros tab H; simpl; auto. rewrite IH by (intros; apply H; simpl; auto).
  apply ttouch_had_other. apply H; simpl; auto.
Qed.
Lemma fold_had_zzt : forall g es tab, zzt g tab -> zzt g (fold_left (fun tab e => etab_had e tab) es tab).
Proof. induction es as [|e es IH]; intros tab H; simpl; auto. apply IH, zzt_had. auto. Qed.

(** ** spider *)
Lemma spider_edges_touch : forall g g1 v0 v1 tab b, wfg g -> noloop g -> gadj g1 = gadj g -> b <> v0 ->
  ttouch b (spider_edges g1 v0 v1 tab) = ttouch b tab + nadj g b [v1].
Proof.
  intros g g1 v0 v1 tab b W NL A Nb. unfold spider_edges, incident_edges.
  replace (neighbors g1 v1) with (neighbors g v1) by (unfold neighbors; rewrite A; reflexivity).
  assert (ET : forall x y, edge_type g1 x y = edge_type g x y) by (intros; unfold edge_type; rewrite A; reflexivity).
  assert (G : forall us tab, NoDup us -> (forall u, In u us -> edge_type g v1 u <> None) ->
    ttouch b (fold_left (fun tab (e : edge) => let (source, target) := e in
      let other := if negb (Nat.eqb source v1) then source else if negb (Nat.eqb target v1) then target else v0 in
      match edge_type g1 source target with Some et => etab_add (v0, other) et tab | None => tab end)
      (map (fun u => if Nat.ltb v1 u then (v1, u) else (u, v1)) us) tab) = ttouch b tab + (if mem b us then 1 else 0)).
  { induction us as [|u us IH]; intros tab0 ND HU; [simpl; lia|]. inversion ND; subst. cbn [map fold_left].
    rewrite IH by (auto; intros; apply HU; simpl; auto).
    assert (Eu := HU u (or_introl eq_refl)). assert (Du : u <> v1) by (intros ->; apply Eu, NL).
    assert (X : forall e, edge_type g v1 u = Some e ->
      ttouch b (etab_add (v0, u) e tab0) + (if mem b us then 1 else 0) = ttouch b tab0 + (if mem b (u :: us) then 1 else 0)).
    { intros e _. rewrite ttouch_add. unfold ehit. cbn [fst snd]. destruct (Nat.eqb_spec v0 b) as [->|_]; [congruence|]. cbn [orb].
      unfold mem at 2. cbn [existsb]. fold (mem b us). destruct (Nat.eqb_spec u b) as [->|D].
      - rewrite Nat.eqb_refl. cbn [orb]. destruct (mem b us) eqn:M; [apply mem_spec in M; contradiction|lia].
      - destruct (Nat.eqb_spec b u); [congruence|]. cbn [orb]. lia. }
    destruct (edge_type g v1 u) as [e|] eqn:Ee; [|congruence].
    destruct (Nat.ltb v1 u).
    - rewrite Nat.eqb_refl. cbn [negb]. destruct (Nat.eqb_spec u v1); [contradiction|]. cbn [negb]. rewrite ET, Ee. apply (X e); auto.
    - destruct (Nat.eqb_spec u v1); [contradiction|]. cbn [negb]. rewrite ET, (wf_sym g W), Ee. apply (X e); auto. }
  rewrite G; [|apply neighbors_nd; auto|intros u Hu; apply neighbors_spec; auto]. f_equal. unfold nadj. cbn [filter].
  destruct (connected g b v1) eqn:C; destruct (mem b (neighbors g v1)) eqn:M; auto; exfalso.
  - apply connected_spec in C. rewrite (wf_sym g W) in C. apply neighbors_spec, mem_spec in C. congruence.
  - apply mem_spec, neighbors_spec in M. rewrite (wf_sym g W) in M. apply connected_spec in M. congruence.
Qed.
Lemma spider_touch : forall g b ms h tab rem h' tab' rem', wfg g -> noloop g -> vty g b = BOUNDARY ->
  (forall m, In m ms -> spider_ok g m) -> gadj h = gadj g -> grindex h = grindex g ->
  foldM spider_one ms (h, tab, rem) = Ok (h', tab', rem') ->
  ttouch b tab' = ttouch b tab + nadj g b (map (fun m => snd (sk g m)) ms).
Proof.
  intros g b ms. induction ms as [|m ms IH]; intros h tab rem h' tab' rem' W NL Tb HO A R H.
  - injection H as <- <- <-. unfold nadj. simpl. lia.
  - cbn [foldM] in H. unfold spider_one at 1 in H.
    replace (if qeqb (row h (fst m)) 0%Qc then (snd m, fst m) else (fst m, snd m)) with (sk g m) in H
      by (unfold sk, row; rewrite R; reflexivity).
    assert (OK := spider_ok_sk g m W (HO m (or_introl eq_refl))). cbn [map]. destruct (sk g m) as [v0 v1] eqn:SK. cbn [fst snd] in *.
    set (h1 := add_to_phase v0 (phase h v1) h) in *.
    assert (N0 : b <> v0) by (intros ->; destruct OK as [_ [_ [_ X]]]; cbn [fst] in X; rewrite Tb in X; discriminate).
    destruct (etab_get (v0, v0) (spider_edges h1 v0 v1 tab)) as [[c nh]|]; [|discriminate]. cbn [bind] in H.
    rewrite (IH _ _ _ _ _ _ W NL Tb (fun m Hm => HO m (or_intror Hm)) (A : gadj h1 = gadj g) (R : grindex h1 = grindex g) H).
    rewrite ttouch_set_other by (apply ehit_false; cbn [fst snd]; auto).
    rewrite (spider_edges_touch g h1 v0 v1 tab b W NL A N0). change (v1 :: map (fun m0 => snd (sk g m0)) ms) with ([v1] ++ map (fun m0 => snd (sk g m0)) ms).
    rewrite nadj_app. lia.
Qed.
Theorem spider_round : forall g ms, zxok g -> bdeg g -> (forall m, In m ms -> spider_ok g m) -> ForallOrdPairs (far g) ms ->
  exists o g', spider ms g = Ok o /\ apply_rw o = Ok g' /\ bdeg g'.
Proof.
  intros g ms Z B HO HF. destruct (spider_shape g ms Z HO HF) as [o [E S]]. assert (E' := E).
  unfold spider in E'. inv_bind E'. destruct a as [[g' tab'] rem']. injection E' as <-.
  destruct (apply_total g _ _ Z B S) as [g2 [E2 [B2 _]]].
  - intros b Hb Tb. cbn [rw_etab]. rewrite (spider_touch g b ms g [] [] g' tab' rem') with (7 := E0); auto; [apply zx_wf; auto|apply zx_noloop; auto].
  - split; [constructor|]. intros s t [].
  - intros g1 g2 g3 H1 H2 H3. exact (proj1 (proj1 (spider_core anyph g ms _ g1 g2 g3 (proj1 (proj2 good_nonzero)) Z (fun _ _ => I) HO HF E H1 H2 H3))).
  - eauto.
Qed.

(** ** identity removal *)
Lemma ids_touch : forall g b ms tab rem tab' rem', wfg g -> (forall m, In m ms -> id_ok g m) ->
  fold_left (fun (st : etab * list nat) (m : idm) => let '(tab, rem) := st in let '(v, v0, v1, et) := m in (etab_add (v0, v1) et tab, rem ++ [v]))
    ms (tab, rem) = (tab', rem') -> ttouch b tab' = ttouch b tab + nadj g b (map idv ms).
Proof.
  intros g b ms. induction ms as [|m ms IH]; intros tab rem tab' rem' W HO H.
  - injection H as <- <-. unfold nadj. simpl. lia.
  - cbn [fold_left] in H. assert (OK := HO m (or_introl eq_refl)). destruct m as [[[v v0] v1] et].
    rewrite (IH _ _ _ _ W (fun m Hm => HO m (or_intror Hm)) H), ttouch_add. cbn [map idv fst].
    change (v :: map idv ms) with ([v] ++ map idv ms). rewrite nadj_app.
    destruct OK as [_ [_ [_ [N _]]]]. assert (X : connected g b v = ehit b (v0, v1)).
    { destruct (connected g b v) eqn:C.
      - apply connected_spec in C. rewrite (wf_sym g W) in C. apply neighbors_spec in C. rewrite N in C. unfold ehit. cbn [fst snd].
        destruct C as [->|[->|[]]]; rewrite Nat.eqb_refl; auto using orb_true_r.
      - destruct (ehit b (v0, v1)) eqn:Eh; auto. exfalso. unfold ehit in Eh. cbn [fst snd] in Eh.
        assert (In b (neighbors g v)) by (rewrite N; apply orb_true_iff in Eh; rewrite !Nat.eqb_eq in Eh; simpl; intuition).
        apply neighbors_spec in H0. rewrite (wf_sym g W) in H0. apply connected_spec in H0. congruence. }
    unfold nadj at 2. cbn [filter]. rewrite X. destruct (ehit b (v0, v1)); simpl; lia.
Qed.
Theorem ids_round : forall g ms, zxok g -> bdeg g -> (forall m, In m ms -> id_ok g m) -> ForallOrdPairs (fun m m' => vfar g (idv m) (idv m')) ms ->
  exists o g', remove_ids ms g = Ok o /\ apply_rw o = Ok g' /\ bdeg g'.
Proof.
  intros g ms Z B HO HF. destruct (ids_shape g ms Z HO HF) as [o [E S]]. assert (E' := E).
  unfold remove_ids in E'. match type of E' with (let '(tab, rem) := ?x in _) = _ => destruct x as [tab' rem'] eqn:E0 end. injection E' as <-.
  destruct (apply_total g _ _ Z B S) as [g2 [E2 [B2 _]]].
  - intros b Hb Tb. cbn [rw_etab]. rewrite (ids_touch g b ms [] [] tab' rem') with (3 := E0); auto. apply zx_wf; auto.
  - split; [constructor|]. intros s t [].
  - intros g1 g2 g3 H1 H2 H3. exact (proj1 (proj1 (ids_core anyph g ms _ g1 g2 g3 (proj1 (proj2 good_nonzero)) Z (fun _ _ => I) HO HF E H1 H2 H3))).
  - eauto.
Qed.

(** ** local complementation *)
Lemma lcomp_touch : forall g b ms h tab rem h' tab' rem', vty g b = BOUNDARY -> (forall m, In m ms -> lc_ok g m) ->
  fold_left lcomp_one ms (h, tab, rem) = (h', tab', rem') -> ttouch b tab' = ttouch b tab /\ (zzt g tab -> zzt g tab').
Proof.
  intros g b ms. induction ms as [|[v vn] ms IH]; intros h tab rem h' tab' rem' Tb HO H.
  - injection H as <- <- <-. auto.
  - cbn [fold_left] in H. unfold lcomp_one at 2 in H. apply IH in H; [|auto|intros m Hm; apply HO; right; exact Hm]. destruct H as [H1 H2]. rewrite lcomp_pairs_fold in *. split.
    + rewrite H1. apply fold_had_touch. intros [x y] He. assert (OK := HO _ (or_introl eq_refl)). destruct OK as [_ [_ [_ [_ OK]]]].
      assert (X : In x vn /\ In y vn).
      { clear - He. induction vn as [|c l IHl]; [destruct He|]. cbn [pairs] in He. apply in_app_iff in He. destruct He as [He|He].
        - apply in_map_iff in He. destruct He as [z [X1 X2]]. injection X1 as -> ->. simpl; auto.
        - apply IHl in He. simpl; tauto. }
      apply ehit_false. cbn [fst snd]. destruct X as [X1 X2]. apply OK in X1, X2. split; intros ->; intuition congruence.
    + intros T. apply H2. apply fold_had_zzt; auto.
Qed.
Theorem lcomp_round : forall g ms, zxok g -> bdeg g -> (forall m, In m ms -> lc_ok g m) -> ForallOrdPairs (fun m m' => vfar g (fst m) (fst m')) ms ->
  exists o g', lcomp ms g = Ok o /\ apply_rw o = Ok g' /\ bdeg g' /\ (glike g -> glike g').
Proof.
  intros g ms Z B HO HF. destruct (lcomp_shape g ms Z HO HF) as [o [E S]]. assert (E' := E). assert (W := zx_wf g Z).
  unfold lcomp in E'. match type of E' with context [fold_left lcomp_one ms ?i] => destruct (fold_left lcomp_one ms i) as [[g' tab'] rem'] eqn:E0 end. injection E' as <-.
  destruct (apply_total g _ _ Z B S) as [g2 [E2 [B2 G2]]].
  - intros b Hb Tb. cbn [rw_etab]. destruct (lcomp_touch g b ms g [] [] g' tab' rem' Tb HO E0) as [-> _]. symmetry. apply nadj_0.
    intros v Hv. apply in_map_iff in Hv. destruct Hv as [[v' vn] [<- Hm]]. destruct (HO _ Hm) as [_ [_ [-> [_ X]]]]. cbn [fst].
    destruct (edge_type g b v') as [e|] eqn:Ee; auto. exfalso.
    destruct (X b) as [_ Y]; [apply neighbors_spec; rewrite (wf_sym g W); congruence|congruence].
  - split; [constructor|]. intros s t [].
  - intros g1 g2 g3 H1 H2 H3. exact (proj1 (proj1 (lcomp_core anyph g ms _ g1 g2 g3 (proj1 (proj2 good_nonzero)) Z (fun _ _ => I) HO HF E H1 H2 H3))).
  - exists (mkRw g' tab' rem' [] true), g2. split; auto. split; auto. split; auto. intros GL. apply G2; [apply glike_L; auto|]. cbn [rw_etab].
    apply zzt_zzh; [apply (sh_tab _ _ _ S)|].
    destruct (vertices g) as [|v0 vs] eqn:V.
    + destruct (lcomp_touch g 0 ms g [] [] g' tab' rem') as [_ X]; auto.
      * unfold vty. destruct (dget 0 (gty g)) eqn:D; auto. assert (In 0 (vertices g)) by (rewrite <- (wf_ty g W); apply dget_keys; eauto). rewrite V in H. destruct H.
      * apply X. intros s t _ _. reflexivity.
    + clear V. assert (X : forall ms h tab rem h' tab' rem', fold_left lcomp_one ms (h, tab, rem) = (h', tab', rem') -> zzt g tab -> zzt g tab').
      { clear. induction ms as [|[v vn] ms IH]; intros h tab rem h' tab' rem' H T; [injection H as <- <- <-; auto|].
        cbn [fold_left] in H. unfold lcomp_one at 2 in H. apply IH in H; auto. rewrite lcomp_pairs_fold. apply fold_had_zzt; auto. }
      apply (X ms g [] [] g' tab' rem' E0). intros s t _ _. reflexivity.
Qed.

(** ** pivoting *)
Lemma add_phases_gadj : forall l a g, gadj (add_phases l a g) = gadj g.
Proof. induction l as [|v l IH]; intros a g; [reflexivity|]. unfold add_phases in *. cbn [fold_left]. rewrite IH. reflexivity. Qed.
Lemma pivot_side_touch : forall g b v w bs nw n2 h tab rem reme h' tab' rem' reme', vty g b = BOUNDARY -> vty g w = ZSP -> side_ok g v w bs -> gadj h = gadj g ->
  pivot_side v w bs nw n2 (h, tab, rem, reme) = (h', tab', rem', reme') ->
  gadj h' = gadj g /\ ttouch b tab' = ttouch b tab + (match bs with u :: _ => if Nat.eqb u b then 1 else 0 | [] => 0 end).
Proof.
  intros g b v w bs nw n2 h tab rem reme h' tab' rem' reme' Tb Tw [S _] A H. unfold pivot_side in H.
  set (h1 := if qeqb (phase h v) 0%Qc then h else add_phases n2 (phase h v) (add_phases nw (phase h v) h)) in *.
  assert (A1 : gadj h1 = gadj g) by (unfold h1; destruct (qeqb _ _); rewrite ?add_phases_gadj; auto).
  destruct S as [->|[u [-> [D [E _]]]]].
  - injection H as <- <- <- <-. split; auto.
  - destruct (match etab_get (w, u) tab with Some c => c | None => (0, 0) end) as [ns nh] eqn:C. injection H as <- <- <- <-. split; auto.
    assert (X := ttouch_set b (w, u) (match edge_type h1 v u with Some SIMPLE => (ns, nh + 1) | Some HADAMARD => (ns + 1, nh) | None => (ns, nh) end) tab).
    assert (C' : cnt (w, u) tab = (ns, nh)) by (unfold cnt; destruct (etab_get (w, u) tab); auto). rewrite C' in X.
    assert (Eh : ehit b (w, u) = Nat.eqb u b).
    { unfold ehit. cbn [fst snd]. destruct (Nat.eqb_spec w b) as [->|]; [congruence|]. reflexivity. }
    rewrite Eh in X. replace (edge_type h1 v u) with (edge_type g v u) in * by (unfold edge_type; rewrite A1; reflexivity).
    destruct (edge_type g v u) as [[|]|]; [..|congruence]; destruct (Nat.eqb u b); cbn [fst snd] in X; lia.
Qed.
Definition pv_leaf (g : graph) (m : pmatch) : Prop :=
  let '((v0,v1),(b0,b1)) := m in
  (forall u, In u b0 -> vty g u = ZSP -> edge_type g v0 u = Some SIMPLE) /\ (forall u, In u b1 -> vty g u = ZSP -> edge_type g v1 u = Some SIMPLE).
Lemma pivot_side_zzt : forall g v w bs nw n2 h tab rem reme h' tab' rem' reme', vty g w = ZSP -> side_ok g v w bs -> gadj h = gadj g ->
  (forall u, In u bs -> vty g u = ZSP -> edge_type g v u = Some SIMPLE) ->
  pivot_side v w bs nw n2 (h, tab, rem, reme) = (h', tab', rem', reme') -> zzt g tab -> zzt g tab'.
Proof.
  intros g v w bs nw n2 h tab rem reme h' tab' rem' reme' Tw [S _] A LF H Zt. unfold pivot_side in H.
  set (h1 := if qeqb (phase h v) 0%Qc then h else add_phases n2 (phase h v) (add_phases nw (phase h v) h)) in *.
  assert (A1 : gadj h1 = gadj g) by (unfold h1; destruct (qeqb _ _); rewrite ?add_phases_gadj; auto).
  destruct S as [->|[u [-> [D [E _]]]]].
  - injection H as <- <- <- <-. auto.
  - destruct (match etab_get (w, u) tab with Some c => c | None => (0, 0) end) as [ns nh] eqn:C. injection H as <- <- <- <-.
    assert (C' : cnt (w, u) tab = (ns, nh)) by (unfold cnt; destruct (etab_get (w, u) tab); auto).
    replace (edge_type h1 v u) with (edge_type g v u) in * by (unfold edge_type; rewrite A1; reflexivity).
    intros s t Ts Tt. rewrite cnt_set. destruct (ekeq (s, t) (w, u)) eqn:K; [|apply Zt; auto].
    assert (Tu : vty g u = ZSP) by (apply ekeq_eq in K; injection K as -> ->; auto).
    rewrite (LF u (or_introl eq_refl) Tu). cbn [fst]. assert (X := Zt w u Tw Tu). rewrite C' in X. exact X.
Qed.
Lemma pivot_touch : forall so g b ms h tab rem reme h' tab' rem' reme', so_ok so -> wfg g -> vty g b = BOUNDARY ->
  (forall m, In m ms -> pv_ok g m) -> gadj h = gadj g ->
  foldM (pivot_one so) ms (h, tab, rem, reme) = Ok (h', tab', rem', reme') -> ttouch b tab' = ttouch b tab + nadj g b (flat_map pv_rem ms).
Proof.
  intros so g b ms. induction ms as [|[[v0 v1] [b0 b1]] ms IH]; intros h tab rem reme h' tab' rem' reme' SO W Tb HO A H.
  - injection H as <- <- <- <-. unfold nadj. simpl. lia.
  - cbn [foldM] in H. assert (OK := HO _ (or_introl eq_refl)). assert (OK' := OK). destruct OK' as [D [T0 [T1 [E01 [_ [_ [S0 [S1 S9]]]]]]]].
    destruct (pivot_sets_spec so g h v0 v1 b0 b1 SO W A OK) as [n0 [n1 [n2 [PS [_ [_ [_ [_ [N2 [N0 N1]]]]]]]]]].
    unfold pivot_one at 1 in H. rewrite PS in H. cbn [bind] in H.
    match type of H with context [pivot_side v0 v1 b0 n1 n2 (?x, tab, rem, reme)] => set (h1 := x) in H end.
    assert (A1 : gadj h1 = gadj g).
    { unfold h1. destruct b0, b1; cbn [on_scalar with_scalar gadj]; match goal with |- context [if ?x then _ else _] => destruct x end;
      cbn [on_scalar with_scalar gadj]; rewrite add_phases_gadj; exact A. }
    clearbody h1.
    destruct (pivot_side v0 v1 b0 n1 n2 (h1, tab, rem, reme)) as [[[h2 tab2] rem2] reme2] eqn:P1.
    destruct (pivot_side v1 v0 b1 n0 n2 (h2, tab2, rem2, reme2)) as [[[h3 tab3] rem3] reme3] eqn:P2.
    destruct (pivot_side_touch g b _ _ _ _ _ _ _ _ _ _ _ _ _ Tb T1 S0 A1 P1) as [A2 Q1].
    destruct (pivot_side_touch g b _ _ _ _ _ _ _ _ _ _ _ _ _ Tb T0 S1 A2 P2) as [A3 Q2].
    cbn [bind] in H. rewrite (IH _ _ _ _ _ _ _ _ SO W Tb (fun m Hm => HO m (or_intror Hm)) A3 H).
    cbn [flat_map]. rewrite nadj_app.
    assert (ZN : forall x, In x n0 \/ In x n1 \/ In x n2 -> x <> b).
    { intros x Hx ->. destruct S0 as [_ S0]. destruct S1 as [_ S1].
      rewrite N0, N1, N2 in Hx. destruct Hx as [[[X1 [X2 X3]] _]|[[[X1 [X2 X3]] _]|[[X1 [X2 X3]] _]]].
      - destruct (S0 b) as [_ Y]; auto; [apply neighbors_spec; auto|congruence].
      - destruct (S1 b) as [_ Y]; auto; [apply neighbors_spec; auto|congruence].
      - destruct (S0 b) as [_ Y]; auto; [apply neighbors_spec; auto|congruence]. }
    rewrite fold_had_touch.
    2:{ intros [x y] He. apply ehit_false. cbn [fst snd].
        rewrite !in_app_iff, !in_prod_iff in He. split; apply ZN; tauto. }
    assert (CB : forall v w bs, side_ok g v w bs -> vty g w = ZSP -> edge_type g b v <> None -> In b bs).
    { intros v w bs [S S'] Tw E. destruct (in_dec Nat.eq_dec b bs) as [I|I]; auto. exfalso.
      destruct (S' b) as [_ Y]; auto; [apply neighbors_spec; rewrite (wf_sym g W); auto|intros ->; congruence|congruence]. }
    assert (NB : forall v w u, side_ok g v w [u] -> vty g w = ZSP -> nadj g b [v] = if Nat.eqb u b then 1 else 0).
    { intros v w u S Tw. unfold nadj. cbn [filter]. destruct (connected g b v) eqn:C.
      - apply connected_spec in C. destruct (CB _ _ _ S Tw C) as [->|[]]. rewrite Nat.eqb_refl. reflexivity.
      - destruct (Nat.eqb_spec u b) as [->|]; auto. exfalso. destruct S as [[S|[u' [S [_ [E _]]]]] _]; [discriminate|].
        injection S as <-. rewrite (wf_sym g W) in E. apply connected_spec in E. congruence. }
    assert (N00 : forall v w, side_ok g v w [] -> vty g w = ZSP -> edge_type g b v = None).
    { intros v w S Tw. destruct (edge_type g b v) eqn:E; auto. destruct (CB _ _ _ S Tw); congruence. }
    destruct S9 as [->| ->].
    + destruct (proj1 S1) as [->|[u [-> [Y1 [Y2 Y3]]]]].
      * cbn [pv_rem] in *. rewrite (nadj_0 g b [v1; v0]) by (intros v [<-|[<-|[]]]; eauto). lia.
      * cbn [pv_rem] in *. rewrite (NB v1 v0 u) by auto. lia.
    + destruct (proj1 S0) as [->|[u [-> [Y1 [Y2 Y3]]]]].
      * cbn [pv_rem] in *. rewrite (nadj_0 g b [v1; v0]) by (intros v [<-|[<-|[]]]; eauto). lia.
      * cbn [pv_rem] in *. rewrite (NB v0 v1 u) by auto. lia.
Qed.
Lemma pivot_zzt : forall so g ms h tab rem reme h' tab' rem' reme', so_ok so -> wfg g ->
  (forall m, In m ms -> pv_ok g m /\ pv_leaf g m) -> gadj h = gadj g ->
  foldM (pivot_one so) ms (h, tab, rem, reme) = Ok (h', tab', rem', reme') -> zzt g tab -> zzt g tab'.
Proof.
  intros so g ms. induction ms as [|[[v0 v1] [b0 b1]] ms IH]; intros h tab rem reme h' tab' rem' reme' SO W HO A H Zt.
  - injection H as <- <- <- <-. auto.
  - cbn [foldM] in H. destruct (HO _ (or_introl eq_refl)) as [OK [L0 L1]]. assert (OK' := OK). destruct OK' as [D [T0 [T1 [E01 [_ [_ [S0 [S1 S9]]]]]]]].
    destruct (pivot_sets_spec so g h v0 v1 b0 b1 SO W A OK) as [n0 [n1 [n2 [PS [_ [_ [_ [_ [N2 [N0 N1]]]]]]]]]].
    unfold pivot_one at 1 in H. rewrite PS in H. cbn [bind] in H.
    match type of H with context [pivot_side v0 v1 b0 n1 n2 (?x, tab, rem, reme)] => set (h1 := x) in H end.
    assert (A1 : gadj h1 = gadj g).
    { unfold h1. destruct b0, b1; cbn [on_scalar with_scalar gadj]; match goal with |- context [if ?x then _ else _] => destruct x end;
      cbn [on_scalar with_scalar gadj]; rewrite add_phases_gadj; exact A. }
    clearbody h1.
    destruct (pivot_side v0 v1 b0 n1 n2 (h1, tab, rem, reme)) as [[[h2 tab2] rem2] reme2] eqn:P1.
    destruct (pivot_side v1 v0 b1 n0 n2 (h2, tab2, rem2, reme2)) as [[[h3 tab3] rem3] reme3] eqn:P2.
    assert (A2 : gadj h2 = gadj g).
    { unfold pivot_side in P1. match type of P1 with context [if qeqb ?x ?y then ?a else ?c] => assert (gadj (if qeqb x y then a else c) = gadj g) by (destruct (qeqb x y); rewrite ?add_phases_gadj; auto) end.
      destruct b0; [injection P1 as <- _ _ _; auto|]. destruct (match etab_get (v1, n) tab with Some c => c | None => (0, 0) end). injection P1 as <- _ _ _; auto. }
    assert (A3 : gadj h3 = gadj g).
    { unfold pivot_side in P2. match type of P2 with context [if qeqb ?x ?y then ?a else ?c] => assert (gadj (if qeqb x y then a else c) = gadj g) by (destruct (qeqb x y); rewrite ?add_phases_gadj; auto) end.
      destruct b1; [injection P2 as <- _ _ _; auto|]. destruct (match etab_get (v0, n) tab2 with Some c => c | None => (0, 0) end). injection P2 as <- _ _ _; auto. }
    cbn [bind] in H. refine (IH _ _ _ _ _ _ _ _ SO W (fun m Hm => HO m (or_intror Hm)) A3 H _).
    apply fold_had_zzt. apply (pivot_side_zzt g _ _ _ _ _ _ _ _ _ _ _ _ _ T0 S1 A2 L1 P2). apply (pivot_side_zzt g _ _ _ _ _ _ _ _ _ _ _ _ _ T1 S0 A1 L0 P1). auto.
Qed.
Lemma nodup_flat_map' : forall A B (f : A -> list B) (R : A -> A -> Prop) ms, ForallOrdPairs R ms ->
  (forall m, In m ms -> NoDup (f m)) -> (forall a b u, In a ms -> In b ms -> R a b -> In u (f a) -> ~ In u (f b)) -> NoDup (flat_map f ms).
Proof.
  intros A B f R ms H. induction H as [|a l F P IH]; simpl; intros N D; [constructor|].
  assert (N1 := N a (or_introl eq_refl)). assert (N2 : NoDup (flat_map f l)) by (apply IH; [auto|intros x y u Hx Hy; apply D; auto]).
  assert (D1 : forall u, In u (f a) -> ~ In u (flat_map f l)).
  { intros u Hu X. apply in_flat_map in X. destruct X as [b [Hb X]]. rewrite Forall_forall in F. apply (D a b u); auto. }
  revert N1 D1. generalize (f a). induction l0 as [|x l0 IH0]; intros M1 M2; simpl; auto. inversion M1; subst. constructor.
  - rewrite in_app_iff. intros [X|X]; [auto|]. apply (M2 x); simpl; auto.
  - apply IH0; auto. intros u Hu. apply M2; simpl; auto.
Qed.
Lemma pivot_edges_in : forall g ms, wfg g -> noloop g -> (forall m, In m ms -> pv_ok g m) -> ForallOrdPairs (pv_far g) ms -> edges_in g (flat_map pv_reme ms).
Proof.
  intros g ms W NL HO HF.
  assert (EX : forall m e, In m ms -> In e (pv_reme m) -> exists v u, e = mkedge v u /\ In v (pv_vs m) /\ In u (snd (snd m) ++ fst (snd m)) /\ edge_type g v u <> None).
  { intros [[v0 v1] [b0 b1]] e Hm He. destruct (HO _ Hm) as [_ [_ [_ [_ [_ [_ [[S0 _] [[S1 _] S9]]]]]]]]. destruct S9 as [->| ->].
    - destruct S1 as [->|[u [-> [Y1 [Y2 Y3]]]]]; [destruct He|]. cbn [pv_reme] in He. destruct He as [<-|[]]. exists v1, u. simpl; auto.
    - destruct S0 as [->|[u [-> [Y1 [Y2 Y3]]]]]; [destruct He|]. cbn [pv_reme] in He. destruct He as [<-|[]]. exists v0, u. simpl; auto. }
  split.
  - apply nodup_flat_map' with (R := pv_far g); auto.
    + intros [[v0 v1] [b0 b1]] Hm. cbn [pv_reme]. destruct b0, b1; repeat constructor; simpl; tauto.
    + intros m m' e Hm Hm' F He He'. destruct (EX m e Hm He) as [v [u [E1 [V1 [_ X1]]]]]. destruct (EX m' e Hm' He') as [v' [u' [E2 [V2 [_ X2]]]]].
      assert (VS : forall m v, In v (pv_vs m) -> v = fst (fst m) \/ v = snd (fst m)) by (intros mm vv; unfold pv_vs; simpl; intuition).
      apply VS in V1, V2. destruct (F v v' V1 V2) as [F1 F2].
      rewrite E1 in E2. unfold mkedge in E2. destruct (Nat.ltb v u), (Nat.ltb v' u'); injection E2 as -> ->; congruence.
  - intros s t H. apply in_flat_map in H. destruct H as [m [Hm He]]. destruct (EX m (s, t) Hm He) as [v [u [E1 [_ [_ X]]]]].
    assert (v <> u) by (intros ->; apply X, NL). unfold mkedge in E1. destruct (Nat.ltb_spec v u); injection E1 as -> ->; split; auto; try lia.
    rewrite (wf_sym g W); auto.
Qed.
Theorem pivot_round_wired : forall so g ms, so_ok so -> zxok g -> bdeg g -> (forall m, In m ms -> pv_ok g m) -> ForallOrdPairs (pv_far g) ms ->
  exists o g', pivot so ms g = Ok o /\ apply_rw o = Ok g' /\ bdeg g' /\ wired g (flat_map pv_rem ms) (rw_etab o) g' /\
    (glikeL (keep (flat_map pv_rem ms) g) g -> (forall m, In m ms -> pv_leaf g m) -> glike g').
Proof.
  intros so g ms SO Z B HO HF. destruct (pivot_shape so g ms SO Z HO HF) as [o [E [S RE]]]. assert (E' := E). assert (W := zx_wf g Z).
  unfold pivot in E'. inv_bind E'. destruct a as [[[g' tab'] rem'] reme']. injection E' as <-.
  destruct (apply_total_wired g _ _ Z B S) as [g2 [E2 [B2 [W2 G2]]]].
  - intros b Hb Tb. cbn [rw_etab]. rewrite (pivot_touch so g b ms g [] [] [] g' tab' rem' reme') with (6 := E0); auto.
  - rewrite RE. apply pivot_edges_in; auto. apply zx_noloop; auto.
  - intros g1 g2 g3 H1 H2 H3. exact (proj1 (proj1 (pivot_core so anyph g ms _ g1 g2 g3 SO (proj1 (proj2 good_nonzero)) Z (fun _ _ => I) HO HF E H1 H2 H3))).
  - eexists. exists g2. split; [exact E|]. split; auto. split; auto. split; auto. intros GL LF. apply G2; auto. cbn [rw_etab].
    apply zzt_zzh; [apply (sh_tab _ _ _ S)|]. apply (pivot_zzt so g ms g [] [] [] g' tab' rem' reme'); auto. intros s t _ _. reflexivity.
Qed.
Theorem pivot_round : forall so g ms, so_ok so -> zxok g -> bdeg g -> (forall m, In m ms -> pv_ok g m) -> ForallOrdPairs (pv_far g) ms ->
  exists o g', pivot so ms g = Ok o /\ apply_rw o = Ok g' /\ bdeg g' /\
    (glikeL (keep (flat_map pv_rem ms) g) g -> (forall m, In m ms -> pv_leaf g m) -> glike g').
Proof.
  intros so g ms SO Z B HO HF. destruct (pivot_round_wired so g ms SO Z B HO HF) as [o [g' [A1 [A2 [A3 [_ A4]]]]]]. exists o, g'. auto.
Qed.
