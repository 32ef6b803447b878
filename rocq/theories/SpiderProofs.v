(** Soundness of spider fusion and of identity removal (one batch). *)
From Coq Require Import Reals ZArith QArith Qcanon List Bool Arith Lia Permutation Ring.
From Verif Require Import CNum Base ScalarModel ScalarProofs GraphModel GraphSem SumLemmas GraphProofs GraphOps RulesModel RuleLemmas.
Import ListNotations.
Open Scope nat_scope.
Open Scope C_scope.

Lemma in_edges : forall g u v, wfg g -> In (u,v) (edges g) <-> (u < v)%nat /\ edge_type g u v <> None.
Proof.
  intros g u v W. unfold edges. rewrite in_flat_map. split.
  - intros [[w d] [H1 H2]]. apply in_map_iff in H2. destruct H2 as [v' [E H2]]. injection E as -> ->.
    apply filter_In in H2. destruct H2 as [H2 H3]. apply Nat.ltb_lt in H3. split; auto.
    apply in_dget in H1; [|apply (wf_nd g W)]. unfold edge_type. rewrite H1.
    intros E. apply dget_none in E. contradiction.
  - intros [L H]. unfold edge_type in H. destruct (dget u (gadj g)) as [d|] eqn:E; [|congruence].
    exists (u, d). split; [apply dget_in; auto|]. apply in_map. apply filter_In. split.
    + destruct (dget v d) eqn:F; [|congruence]. eapply dget_some_key; eauto.
    + apply Nat.ltb_lt; auto.
Qed.

Lemma edge_type_in_l : forall g u v, edge_type g u v <> None -> In u (vertices g).
Proof.
  intros g u v H. unfold edge_type in H. destruct (dget u (gadj g)) eqn:E; [|congruence].
  unfold vertices. eapply dget_some_key; eauto.
Qed.

Lemma incident_in : forall g u v, (u < v)%nat -> edge_type g u v <> None ->
  In (u,v) (incident_edges g u).
Proof.
  intros. unfold incident_edges. apply in_map_iff. exists v. split.
  - destruct (Nat.ltb_spec u v); [reflexivity|lia].
  - apply neighbors_spec; auto.
Qed.
Lemma incident_in_r : forall g u v, wfg g -> (u < v)%nat -> edge_type g u v <> None ->
  In (u,v) (incident_edges g v).
Proof.
  intros. unfold incident_edges. apply in_map_iff. exists u. split.
  - destruct (Nat.ltb_spec v u); [lia|reflexivity].
  - apply neighbors_spec. rewrite wf_sym; auto.
Qed.

(** Two vertex pairs that neither share a vertex nor are joined by an edge. *)
Definition far (g : graph) (m m' : edge) : Prop :=
  forall a b, (a = fst m \/ a = snd m) -> (b = fst m' \/ b = snd m') -> a <> b /\ edge_type g a b = None.

Lemma far_discard : forall g v0 v1 u0 u1, wfg g -> edge_type g v0 v1 <> None ->
  (u0 < u1)%nat -> edge_type g u0 u1 <> None ->
  ~ In (u0,u1) (nbr_edges g v0 ++ nbr_edges g v1) -> far g (v0,v1) (u0,u1).
Proof.
  intros g v0 v1 u0 u1 W E L E' H.
  assert (X : forall b, (b = u0 \/ b = u1) -> edge_type g v0 b = None /\ edge_type g v1 b = None).
  { intros b Hb. split.
    - destruct (edge_type g v0 b) eqn:F; auto. exfalso. apply H. apply in_app_iff. left.
      apply in_flat_map. exists b. split; [apply neighbors_spec; congruence|].
      destruct Hb as [->| ->]; [apply incident_in; auto | apply incident_in_r; auto].
    - destruct (edge_type g v1 b) eqn:F; auto. exfalso. apply H. apply in_app_iff. right.
      apply in_flat_map. exists b. split; [apply neighbors_spec; congruence|].
      destruct Hb as [->| ->]; [apply incident_in; auto | apply incident_in_r; auto]. }
  intros a b Ha Hb. simpl in *. destruct (X b Hb) as [X0 X1].
  destruct Ha as [->| ->]; split; auto.
  - intros ->. rewrite (wf_sym g W) in X1. contradiction.
  - intros ->. contradiction.
Qed.

Definition spider_ok (g : graph) (m : edge) : Prop :=
  fst m <> snd m /\ edge_type g (fst m) (snd m) = Some SIMPLE /\
  vty g (fst m) = vty g (snd m) /\ vertex_is_zx (vty g (fst m)) = true.

Lemma match_spider_in : forall g num cands i disc e,
  In e (match_spider_loop g num i cands disc) -> In e cands /\ ~ In e disc /\ spider_ok g e.
Proof.
  induction cands as [|c cands IH]; simpl; intros i disc e H; [contradiction|].
  destruct (lim_reached num i); [contradiction|].
  assert (D : forall j d, In e (match_spider_loop g num j cands d) ->
     (forall x, In x disc -> In x d) -> (c = e \/ In e cands) /\ ~ In e disc /\ spider_ok g e).
  { intros j d Hj Hd. apply IH in Hj. destruct Hj as [A [B Q]]. repeat split; auto; apply Q. }
  destruct (emem c disc) eqn:M; [eapply D; eauto|].
  destruct (edge_type g (fst c) (snd c)) as [[|]|] eqn:E; try (eapply D; eauto; fail).
  destruct c as [v0 v1]. destruct (Nat.eqb_spec v0 v1) as [|N]; [eapply D; eauto|].
  match goal with H : In e (if ?b then _ else _) |- _ => destruct b eqn:T end; [|eapply D; eauto].
  destruct H as [<-|H].
  - split; auto. split; [apply emem_false; auto|]. unfold spider_ok. simpl in *. repeat split; auto.
    + apply orb_true_iff in T. destruct T as [T|T]; apply andb_true_iff in T; destruct T as [T1 T2].
      * apply vtype_eqb_eq; auto.
      * unfold vertex_is_z_like in *. apply vtype_eqb_eq in T1, T2. congruence.
    + apply orb_true_iff in T. destruct T as [T|T]; apply andb_true_iff in T; destruct T as [T1 T2]; auto.
      unfold vertex_is_z_like, vertex_is_zx in *. rewrite T1. reflexivity.
  - eapply D; eauto. intros; apply in_app_iff; auto.
Qed.

Lemma match_spider_far : forall g num cands i disc, wfg g ->
  (forall e, In e cands -> In e (edges g)) ->
  ForallOrdPairs (far g) (match_spider_loop g num i cands disc).
Proof.
  intros g num cands. induction cands as [|c cands IH]; simpl; intros i disc W H; [constructor|].
  destruct (lim_reached num i); [constructor|].
  destruct (emem c disc); [apply IH; auto|].
  destruct (edge_type g (fst c) (snd c)) as [[|]|] eqn:E; try (apply IH; auto; fail).
  destruct c as [v0 v1]. destruct (Nat.eqb_spec v0 v1) as [|N]; [apply IH; auto|].
  match goal with |- ForallOrdPairs _ (if ?b then _ else _) => destruct b eqn:T end; [|apply IH; auto].
  constructor; [|apply IH; auto]. rewrite Forall_forall. intros [u0 u1] Hu.
  apply match_spider_in in Hu. destruct Hu as [A [B Q]].
  assert (I := H _ (or_intror A)). apply in_edges in I; auto. destruct I as [I1 I2].
  simpl in E. apply far_discard; auto; [congruence|].
  intros X. apply B. apply in_app_iff. right. exact X.
Qed.

(** kept and removed vertex of a match *)
Definition sk (g : graph) (m : edge) : edge :=
  if qeqb (row g (fst m)) 0%Qc then (snd m, fst m) else (fst m, snd m).
Lemma sk_cases : forall g m, sk g m = (fst m, snd m) \/ sk g m = (snd m, fst m).
Proof. intros. unfold sk. destruct (qeqb _ _); auto. Qed.
Lemma spider_ok_sk : forall g m, wfg g -> spider_ok g m -> spider_ok g (sk g m).
Proof.
  intros g m W H. destruct (sk_cases g m) as [->| ->]; [destruct m; auto|].
  destruct H as [A [B [D E]]]. unfold spider_ok; simpl. repeat split; auto.
  - rewrite (wf_sym g W); auto.
  - congruence.
Qed.
Lemma far_sk : forall g m m', far g m m' -> far g (sk g m) (sk g m').
Proof.
  intros g m m' H a b Ha Hb. apply H.
  - destruct (sk_cases g m) as [E|E]; rewrite E in Ha; simpl in Ha; tauto.
  - destruct (sk_cases g m') as [E|E]; rewrite E in Hb; simpl in Hb; tauto.
Qed.

(** effect of fusing v1 into v0 on the remaining vertices *)
Definition spider_eff (g : graph) (v0 v1 : nat) (x : assignment) : C :=
  pw g v1 (x v0) * cprod (fun u => if Nat.eqb u v0 then C1 else ew g v1 u (x v0) (x u)) (neighbors g v1).

Lemma spider_local : forall g v0 v1 rest x, wfg g -> NoDup rest -> ~ In v1 rest -> noloop g ->
  (forall u, In u (neighbors g v1) -> In u rest) -> spider_ok g (v0,v1) ->
  sumv [v1] (loc g [v1] rest) x = spider_eff g v0 v1 x.
Proof.
  intros g v0 v1 rest x W N Nv NL Hr [Hne [He [Ht Hz]]]. simpl in Hne, He, Ht, Hz.
  assert (In0 : In v0 (neighbors g v1)).
  { apply neighbors_spec. rewrite (wf_sym g W). congruence. }
  assert (L : forall b, loc g [v1] rest (upd x v1 b) = pw g v1 b *
     cprod (fun u => ew g v1 u b (x u)) (neighbors g v1)).
  { intros b. unfold loc. simpl. rewrite upd_same.
    rewrite <- (cprod_nbrs g v1 rest (neighbors g v1) (fun u => ew g v1 u b (x u))); auto.
    - rewrite (cprod_ext _ (fun v => ew g v1 v b (upd x v1 b v)) (fun v => ew g v1 v b (x v))).
      + ring.
      + intros a Ha. rewrite upd_other; auto. intros ->; auto.
    - apply neighbors_nd; auto.
    - intros v. rewrite neighbors_spec. split; [|tauto]. intros. split; auto. apply Hr. apply neighbors_spec; auto.
    - intros v Hv. apply ew_none; auto. }
  simpl sumv. rewrite !L. unfold spider_eff.
  apply in_perm_front in In0. destruct In0 as [l P].
  assert (Nl : ~ In v0 l).
  { assert (NoDup (v0 :: l)) by (eapply Permutation_NoDup; [exact P|apply neighbors_nd; auto]). inversion H; auto. }
  assert (E : forall b, ew g v1 v0 b (x v0) = dlt b (x v0)).
  { intros b. unfold ew, isX. rewrite Ht, (wf_sym g W), He. destruct (vty g v1); reflexivity. }
  repeat rewrite (cprod_perm _ _ _ _ P). simpl.
  rewrite Nat.eqb_refl, !E.
  rewrite (cprod_ext _ (fun u => if Nat.eqb u v0 then C1 else ew g v1 u (x v0) (x u)) (fun u => ew g v1 u (x v0) (x u)) l).
  2:{ intros a Ha. destruct (Nat.eqb_spec a v0); [subst; contradiction|reflexivity]. }
  destruct (x v0); unfold dlt; simpl; ring.
Qed.

(** the loop that fills the table *)
Lemma spider_edges_spec : forall g g1 v0 v1 rest tab, wfg g -> gadj g1 = gadj g -> noloop g -> NoDup rest ->
  spider_ok g (v0,v1) -> tabL rest tab -> In v0 rest -> (forall u, In u (neighbors g v1) -> In u rest) ->
  exists c tab1, spider_edges g1 v0 v1 tab = tab1 /\ etab_get (v0,v0) tab1 = Some c /\
   tabL rest (etab_set (v0,v0) (0%nat, snd c) tab1) /\
   forall x, tabw g (etab_set (v0,v0) (0%nat, snd c) tab1) x = tabw g tab x *
     cprod (fun u => if Nat.eqb u v0 then C1 else ew g v1 u (x v0) (x u)) (neighbors g v1).
Proof.
  intros g g1 v0 v1 rest tab W A NL ND [Hne [He [Ht Hz]]] T I0 Hr. simpl in Hne, He, Ht, Hz.
  unfold spider_edges, incident_edges.
  replace (neighbors g1 v1) with (neighbors g v1) by (unfold neighbors; rewrite A; reflexivity).
  assert (ET : forall a b, edge_type g1 a b = edge_type g a b) by (intros; unfold edge_type; rewrite A; reflexivity).
  assert (In0 : In v0 (neighbors g v1)).
  { apply neighbors_spec. rewrite (wf_sym g W). congruence. }
  assert (NN := neighbors_nd g v1 W).
  assert (NV : forall u, In u (neighbors g v1) -> edge_type g v1 u <> None /\ u <> v1).
  { intros u Hu. apply neighbors_spec in Hu. split; auto. intros ->. rewrite NL in Hu. auto. }
  set (step := fun (tab0 : etab) (e : nat * nat) =>
    let (source, target) := e in
    match edge_type g1 source target with
    | Some et => etab_add (v0, if negb (source =? v1) then source else if negb (target =? v1) then target else v0) et tab0
    | None => tab0 end).
  assert (ST : forall u tab0, edge_type g v1 u <> None -> u <> v1 -> exists et, edge_type g v1 u = Some et /\
     step tab0 (if v1 <? u then (v1, u) else (u, v1)) = etab_add (v0, u) et tab0).
  { intros u tab0 Hu Hv. destruct (edge_type g v1 u) as [et|] eqn:E; [|congruence]. exists et. split; auto.
    unfold step. destruct (Nat.ltb_spec v1 u).
    - rewrite ET, E, Nat.eqb_refl. simpl. destruct (Nat.eqb_spec u v1); [contradiction|reflexivity].
    - rewrite ET, (wf_sym g W), E. destruct (Nat.eqb_spec u v1); [contradiction|reflexivity]. }
  (* generalise over the neighbour list *)
  assert (G : forall us tab0, tab_nd tab0 -> NoDup us ->
    (forall u, In u us -> edge_type g v1 u <> None /\ u <> v1) ->
    let tab1 := fold_left step (map (fun u => if v1 <? u then (v1,u) else (u,v1)) us) tab0 in
    tab_nd tab1 /\
    (forall s t, cnt (s,t) tab1 = if Nat.eqb s v0 && mem t us then
        match edge_type g v1 t with Some et => inc et (cnt (s,t) tab0) | None => cnt (s,t) tab0 end else cnt (s,t) tab0) /\
    (In v0 us -> etab_get (v0,v0) tab1 <> None) /\
    (forall f, etab_get f tab0 <> None -> etab_get f tab1 <> None) /\
    forall x, tabw g tab1 x = tabw g tab0 x * cprod (fun u => ew g v1 u (x v0) (x u)) us).
  { induction us as [|u us IH]; intros tab0 N0 Nu Hu; simpl.
    - split; auto. split; [intros s t; rewrite andb_false_r; reflexivity|]. split; [tauto|]. split; [auto|]. intros; ring.
    - inversion Nu; subst.
      destruct (ST u tab0) as [et [E1 E2]]; try apply Hu; simpl; auto. rewrite E2.
      destruct (IH (etab_add (v0,u) et tab0)) as [B1 [B2 [B3 [B4 B5]]]]; auto using etab_add_nd.
      { intros; apply Hu; simpl; auto. }
      split; [auto|]. split; [|split; [|split]].
      + intros s t. rewrite B2, cnt_add. unfold mem at 2. simpl. fold (mem t us).
        destruct (Nat.eqb_spec s v0) as [->|Hs]; simpl.
        * destruct (Nat.eqb_spec t u) as [->|Htu]; simpl.
          -- rewrite ekeq_refl. destruct (mem u us) eqn:M; [apply mem_spec in M; contradiction|].
             rewrite E1. reflexivity.
          -- rewrite ekeq_neq by congruence. reflexivity.
        * rewrite ekeq_neq by congruence. reflexivity.
      + intros [->|Hv0]; [|auto]. apply B4. unfold etab_add. destruct (match etab_get _ _ with Some c => c | None => _ end).
        rewrite etab_get_set, ekeq_refl. discriminate.
      + intros f Hf. apply B4. unfold etab_add. destruct (match etab_get _ _ with Some c => c | None => _ end).
        rewrite etab_get_set. destruct (ekeq f (v0,u)); [discriminate|auto].
      + intros x. rewrite B5, tabw_add by auto. unfold ew at 2. rewrite E1. unfold nw. simpl.
        unfold isX. rewrite Ht. ring. }
  destruct T as [TN TC].
  destruct (G (neighbors g v1) tab TN NN NV) as [B1 [B2 [B3 [_ B5]]]].
  change (fold_left _ _ tab) with (fold_left step (map (fun u => if v1 <? u then (v1,u) else (u,v1)) (neighbors g v1)) tab).
  set (tab1 := fold_left step _ tab) in *.
  destruct (etab_get (v0,v0) tab1) as [c|] eqn:Ec; [|destruct (B3 In0 eq_refl)].
  exists c, tab1. split; auto. split; auto.
  assert (Cc : cnt (v0,v0) tab1 = (1,0)%nat).
  { rewrite B2, Nat.eqb_refl. assert (M : mem v0 (neighbors g v1) = true) by (apply mem_spec; auto). rewrite M.
    simpl. rewrite (wf_sym g W), He. destruct (TC v0 v0) as [Z|[Z _]]; [rewrite Z; reflexivity|congruence]. }
  assert (c = (1,0)%nat) by (unfold cnt in Cc; rewrite Ec in Cc; auto). subst c. simpl.
  split.
  - split; [apply etab_set_nd; auto|]. intros s t. rewrite cnt_set.
    destruct (ekeq (s,t) (v0,v0)) eqn:K; [left; reflexivity|]. rewrite B2.
    destruct (Nat.eqb s v0 && mem t (neighbors g v1)) eqn:M; [|apply TC].
    apply andb_true_iff in M. destruct M as [M1 M2]. apply Nat.eqb_eq in M1. subst s. apply mem_spec in M2.
    right. split; [|split; auto]. intros ->. rewrite ekeq_refl in K. discriminate.
  - intros x. destruct (etab_set_w g (v0,v0) (0,0)%nat tab1 x B1) as [K [K1 K2]].
    rewrite Cc in K1. rewrite K2, entw_0.
    assert (Z : entw g (v0, v0, (1,0)%nat) x = C1).
    { unfold entw. simpl. unfold nw. rewrite xorb_nilpotent. simpl. unfold dlt. rewrite Bool.eqb_reflx. ring. }
    rewrite Z in K1. rewrite <- K1, B5. f_equal.
    apply cprod_ext. intros u Hu. destruct (Nat.eqb_spec u v0); [subst|reflexivity].
    unfold ew, isX. rewrite Ht, (wf_sym g W), He, xorb_nilpotent. simpl. unfold dlt. rewrite Bool.eqb_reflx. reflexivity.
Qed.

Lemma spider_fold : forall g rest ms, wfg g -> noloop g -> NoDup rest ->
  (forall m, In m ms -> spider_ok g m) -> ForallOrdPairs (far g) ms ->
  (forall m, In m ms -> In (fst (sk g m)) rest /\ In (fst (sk g m)) (vertices g) /\
      forall u, In u (neighbors g (snd (sk g m))) -> In u rest) ->
  forall g1 tab rem, wfg g1 -> same_frame g g1 -> gadj g1 = gadj g -> gscalar g1 = gscalar g -> tabL rest tab ->
  (forall m, In m ms -> phase g1 (snd (sk g m)) = phase g (snd (sk g m))) ->
  exists g' tab', foldM spider_one ms (g1, tab, rem) = Ok (g', tab', rem ++ map (fun m => snd (sk g m)) ms) /\
    wfg g' /\ same_frame g g' /\ gadj g' = gadj g /\ gscalar g' = gscalar g /\ tabL rest tab' /\
    forall x, integL rest g' x * tabw g tab' x = integL rest g1 x * tabw g tab x
       * cprod (fun m => spider_eff g (fst (sk g m)) (snd (sk g m)) x) ms.
Proof.
  intros g rest ms W NL ND. induction ms as [|m ms IH]; intros HO HF HR g1 tab rem W1 F1 A1 S1 T1 P1.
  - exists g1, tab. simpl. rewrite app_nil_r.
    do 6 (split; [auto; fail|]). intros; ring.
  - inversion HF; subst. rewrite Forall_forall in H1.
    assert (OK : spider_ok g (sk g m)) by (apply spider_ok_sk; auto; apply HO; simpl; auto).
    destruct (HR m (or_introl eq_refl)) as [R1 [R2 R3]].
    assert (SKE : (if qeqb (row g1 (fst m)) 0%Qc then (snd m, fst m) else (fst m, snd m)) = sk g m).
    { unfold sk, row. destruct F1 as (_ & _ & _ & _ & _ & _ & Fr). rewrite Fr. reflexivity. }
    cbn [foldM map cprod]. unfold spider_one at 1. rewrite SKE. destruct (sk g m) as [v0 v1] eqn:SK. simpl fst in *; simpl snd in *.
    assert (Z0 : isB g v0 = false).
    { destruct OK as [_ [_ [_ Z]]]. simpl in Z. unfold isB. destruct (vty g v0); auto; discriminate. }
    assert (Z1 : isB g v1 = false).
    { destruct OK as [_ [_ [Y Z]]]. simpl in Y, Z. unfold isB. rewrite <- Y. destruct (vty g v0); auto; discriminate. }
    set (g2 := add_to_phase v0 (phase g1 v1) g1).
    assert (A2 : gadj g2 = gadj g) by (rewrite <- A1; reflexivity).
    destruct (spider_edges_spec g g2 v0 v1 rest tab W A2 NL ND OK T1 R1 R3) as [c [tab1 [X1 [X2 [X3 X4]]]]].
    rewrite X1, X2. destruct c as [c0 nh]. simpl bind. cbv beta iota.
    assert (V1 : In v0 (vertices g1)) by (destruct F1 as [Fv _]; rewrite Fv; auto).
    destruct (IH) with (g1 := g2) (tab := etab_set (v0,v0) (0%nat, nh) tab1) (rem := rem ++ [v1])
       as [g' [tab' [Y1 [Y2 [Y3 [Y4 [Y5 [Y6 Y7]]]]]]]].
    + intros m' Hm'. apply HO; simpl; auto.
    + auto.
    + intros m' Hm'. apply HR; simpl; auto.
    + apply add_to_phase_wfg; auto.
    + eapply same_frame_trans; [exact F1|]. apply add_to_phase_frame.
    + auto.
    + simpl. auto.
    + exact X3.
    + intros m' Hm'. unfold g2. rewrite phase_add_to_phase. rewrite <- (P1 m') by (simpl; auto).
      destruct (Nat.eqb_spec (snd (sk g m')) v0); [|reflexivity].
      exfalso. destruct (far_sk g m m' (H1 m' Hm') v0 (snd (sk g m'))) as [Q _]; rewrite ?SK; simpl; auto.
    + exists g', tab'. split.
      { simpl in Y1 |- *. rewrite Y1. rewrite <- app_assoc. reflexivity. }
      do 5 (split; [auto; fail|]).
      intros x. rewrite Y7. unfold g2. rewrite integL_add_to_phase; auto.
      2:{ rewrite (same_frame_isB g g1); auto. }
      simpl in X4. rewrite X4. unfold spider_eff at 2.
      assert (E : phase g1 v1 = phase g v1) by (specialize (P1 m (or_introl eq_refl)); rewrite SK in P1; exact P1).
      rewrite E. unfold pw at 1. rewrite Z1. ring.
Qed.

Lemma spider_fold_allph : forall P g ms st st', pcl P -> allph P (fst (fst st)) ->
  vertices (fst (fst st)) = vertices g ->
  (forall m, In m ms -> In (fst m) (vertices g) /\ In (snd m) (vertices g)) ->
  foldM spider_one ms st = Ok st' -> allph P (fst (fst st')) /\ vertices (fst (fst st')) = vertices g.
Proof.
  intros P g ms. induction ms as [|m ms IH]; simpl; intros st st' PC A V HM H.
  - injection H as <-. auto.
  - inv_bind H. destruct st as [[g1 tab] rem]. simpl in A, V. unfold spider_one in E.
    destruct (HM m (or_introl eq_refl)) as [M1 M2].
    destruct (if qeqb (row g1 (fst m)) 0%Qc then (snd m, fst m) else (fst m, snd m)) as [v0 v1] eqn:SK.
    assert (I : In v0 (vertices g) /\ In v1 (vertices g)).
    { destruct (qeqb _ _); injection SK as <- <-; auto. }
    match goal with E : (match ?x with _ => _ end) = _ |- _ => destruct x as [[c nh]|] end; [|discriminate].
    injection E as <-. apply IH in H; auto; simpl; auto.
    apply allph_add_to_phase; auto; [apply PC|rewrite V; tauto|]. right. apply A. rewrite V. tauto.
Qed.

Theorem spider_core : forall P g ms o g1 g2 g3, pcl P -> zxok g -> allph P g ->
  (forall m, In m ms -> spider_ok g m) -> ForallOrdPairs (far g) ms ->
  spider ms g = Ok o ->
  add_edge_table (rw_etab o) (rw_graph o) = Ok g1 -> remove_edges (rw_edges o) g1 = Ok g2 ->
  remove_vertices (rw_verts o) g2 = Ok g3 -> step_ok g g3 /\ allph P g3.
Proof.
  intros P g ms o g1 g2 g3 PC ZX AP HO HF H E1 E2 E3.
  assert (W := zx_wf g ZX). assert (NL := zx_noloop g ZX).
  set (rem := map (fun m => snd (sk g m)) ms).
  assert (HS : forall m, In m ms -> spider_ok g (sk g m)) by (intros; apply spider_ok_sk; auto).
  assert (EI : forall m, In m ms -> In (fst (sk g m)) (vertices g) /\ In (snd (sk g m)) (vertices g)).
  { intros m Hm. destruct (HS m Hm) as [_ [X _]].
    split; [apply (edge_type_in_l g (fst (sk g m)) (snd (sk g m)))|apply (edge_type_in_l g (snd (sk g m)) (fst (sk g m)))]; auto; [congruence|].
    rewrite (wf_sym g W). congruence. }
  assert (HF' : forall m m', In m ms -> In m' ms -> m = m' \/ far g (sk g m) (sk g m') \/ far g (sk g m') (sk g m)).
  { intros m m' Hm Hm'. destruct (FOP_in _ _ _ m m' HF Hm Hm') as [?|[?|?]]; auto using far_sk. }
  assert (NR : NoDup rem).
  { apply nodup_map_fop with (R := far g); auto. intros a b _ _ F.
    apply (far_sk g a b F); auto. }
  assert (KR : forall m, In m ms -> ~ In (fst (sk g m)) rem /\ forall u, In u (neighbors g (snd (sk g m))) -> ~ In u rem).
  { intros m Hm. split.
    - intros X. apply in_map_iff in X. destruct X as [m' [X1 X2]].
      destruct (HF' m m' Hm X2) as [<-|[F|F]].
      + destruct (HS m Hm) as [Y _]. congruence.
      + destruct (F (fst (sk g m)) (snd (sk g m'))); auto.
      + destruct (F (snd (sk g m')) (fst (sk g m))); auto.
    - intros u Hu X. apply neighbors_spec in Hu. apply in_map_iff in X. destruct X as [m' [X1 X2]]. subst u.
      destruct (HF' m m' Hm X2) as [<-|[F|F]].
      + rewrite NL in Hu. congruence.
      + destruct (F (snd (sk g m)) (snd (sk g m'))); auto.
      + destruct (F (snd (sk g m')) (snd (sk g m))) as [_ Y]; auto. rewrite (wf_sym g W) in Y. auto. }
  assert (RB : forall v, In v rem -> In v (vertices g) /\ isB g v = false).
  { intros v Hv. apply in_map_iff in Hv. destruct Hv as [m [<- Hm]]. split; [apply EI; auto|].
    destruct (HS m Hm) as [_ [_ [X Y]]]. unfold isB. rewrite <- X. destruct (vty g (fst (sk g m))); auto; discriminate. }
  destruct (spider_fold g (keep rem g) ms W NL (keep_nd rem g W) HO HF) with (g1 := g) (tab := @nil (edge * (nat * nat))) (rem := @nil nat)
    as [g' [tab' [X1 [X2 [X3 [X4 [X5 [X6 X7]]]]]]]]; auto.
  { intros m Hm. destruct (KR m Hm) as [K1 K2]. destruct (EI m Hm) as [V1 V2].
    split; [apply in_keep; auto|]. split; auto. intros u Hu. apply in_keep. split; [|auto].
    apply (neighbors_in g (snd (sk g m))); auto. }
  { apply same_frame_refl. }
  { apply tabL_nil. }
  unfold spider in H. rewrite X1 in H. simpl in H. injection H as <-. simpl in E1, E2, E3.
  injection E2 as <-. fold rem in X1, E3.
  assert (AG : forall Q, pcl Q -> allph Q g -> allph Q g').
  { intros Q QC AQ. destruct (spider_fold_allph Q g ms (g,[],[]) (g',tab',rem)) as [R _]; auto.
    intros m Hm. destruct (EI m Hm) as [Z1 Z2]. destruct (sk_cases g m) as [E|E]; rewrite E in *; auto. }
  split.
  - apply (batch_sound g rem g' tab' g1 g3); auto.
    + apply AG; [exact pcl_in02|]. exact (zx_ph g ZX).
    + intros x. rewrite X7. unfold rem at 1 2. rewrite <- flat_map_single. rewrite batch_sum.
      * cbn [tabw cprod]. rewrite (cprod_ext _ (fun m => sumv [snd (sk g m)] (loc g [snd (sk g m)] (keep rem g)) x)
           (fun m => spider_eff g (fst (sk g m)) (snd (sk g m)) x) ms); [unfold tabw; cbn [cprod map]; ring|].
        intros m Hm. apply spider_local; auto.
        -- apply keep_nd; auto.
        -- rewrite in_keep. intros [_ Y]. apply Y. apply in_map_iff. eauto.
        -- intros u Hu. apply in_keep. split; [apply (neighbors_in g (snd (sk g m))); auto|].
           apply (proj2 (KR m Hm)); auto.
        -- destruct (sk g m) eqn:S. specialize (HS m Hm). rewrite S in HS. exact HS.
      * rewrite flat_map_single. fold rem. apply nodup_app; auto; [apply keep_nd; auto|].
        intros v Hv Hk. apply in_keep in Hk. tauto.
      * eapply ForallOrdPairs_imp; [|exact HF]. intros a b _ _ F u w [<-|[]]. intros [<-|[]].
        apply (far_sk g a b F); auto.
  - exact (batch_allph P _ rem tab' g' g1 g3 PC (keep_nd rem g W) X2 (AG P PC AP) X6 E1 E3).
Qed.
