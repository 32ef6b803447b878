(** basicrules.fuse, remove_id and pi_commute_Z *)
From Coq Require Import Reals ZArith QArith Qcanon List Bool Arith Lia Permutation.
From Verif Require Import CNum Base ScalarModel ScalarProofs GraphModel GraphSem SumLemmas GraphProofs GraphOps
  RulesModel RuleLemmas SpiderProofs IdProofs SimpModel ColorProofs InvProofs RuleShape BasicRulesModel BasicColor.
Import ListNotations.
Open Scope nat_scope.
Open Scope C_scope.

Lemma one_sum : forall g v L x, ~ In v L -> sumv [v] (integL ([v] ++ L) g) x = integL L g x * sumv [v] (loc g [v] L) x.
Proof.
  intros g v L x N. rewrite <- (sumv_mult_indep [v] (integL L g)).
  - apply sumv_ext. intros y. rewrite integL_app. reflexivity.
  - intros y u b [<-|[]]. apply integL_indep; auto.
Qed.
Lemma keep_no : forall v g, ~ In v (keep [v] g).
Proof. intros v g H. apply in_keep in H. destruct H as [_ H]. apply H. left; auto. Qed.
Lemma nbr_keep : forall v g u, wfg g -> noloop g -> In u (neighbors g v) -> In u (keep [v] g).
Proof.
  intros v g u W NL H. apply in_keep. split; [eapply neighbors_in; eauto|]. intros [<-|[]]. apply neighbors_spec in H. apply H, NL.
Qed.
Definition one (et : etype) : nat * nat := match et with SIMPLE => (1, 0)%nat | HADAMARD => (0, 1)%nat end.
Lemma entw_one : forall g s t et x, entw g ((s, t), one et) x = nw g et s t x.
Proof. intros g s t [] x; unfold entw, one; cbn [cpow]; ring. Qed.
Lemma table_one : forall s t et tab g, add_edge_table (((s, t), one et) :: tab) g = let* g := add_edge s t et g in add_edge_table tab g.
Proof. intros s t [] tab g; unfold add_edge_table; cbn [foldM one iterM bind]; destruct (add_edge s t _ g); reflexivity. Qed.

Lemma apply_one : forall h tab v, apply_rw (mkRw h tab [v] [] false) = let* g := add_edge_table tab h in remove_vertices [v] g.
Proof. intros. unfold apply_rw. cbn [rw_graph rw_etab rw_verts rw_edges rw_check]. destruct (add_edge_table tab h) as [h1|]; cbn; auto. destruct (remove_vertices [v] h1); auto. Qed.

(** *** remove_id *)
Theorem remove_id_ok : forall v g, zxok g -> bdeg g -> In v (vertices g) -> exists b g', remove_id v g = Ok (b, g') /\ zxok g' /\ bdeg g' /\ same_map g g' /\
  b = (Nat.eqb (length (neighbors g v)) 2 && qeqb (phase g v) 0%Qc)%bool /\ if b then vertices g' = keep [v] g else g' = g.
Proof.
  intros v g ZX BD Hv. assert (W := zx_wf g ZX). assert (NL := zx_noloop g ZX). unfold remove_id, check_remove_id. rewrite neighbors_r_ok by auto. cbn [bind].
  destruct (Nat.eqb (length (neighbors g v)) 2 && qeqb (phase g v) 0%Qc)%bool eqn:C; cbn [negb].
  2:{ exists false, g. split; auto. split; auto. split; auto. repeat split; auto. }
  apply andb_true_iff in C. destruct C as [C1' C2']. apply qeqb_eq in C2'. assert (NN := neighbors_nd g v W).
  destruct (neighbors g v) as [|v1 [|v2 [|v3 l]]] eqn:NB; try discriminate.
  assert (N12 : v1 <> v2) by (inversion NN as [|? ? M1 M2]; subst; intros ->; apply M1; left; auto).
  assert (E1 : exists e1, edge_type g v v1 = Some e1) by (apply neighbors_some; rewrite NB; left; auto).
  assert (E2 : exists e2, edge_type g v v2 = Some e2) by (apply neighbors_some; rewrite NB; right; left; auto).
  destruct E1 as [e1 E1], E2 as [e2 E2]. rewrite E1, E2. cbn [of_opt bind].
  assert (NBv : vty g v <> BOUNDARY).
  { intros TB. destruct (BD v Hv TB) as [u Hu]. apply N12. transitivity u; [|symmetry]; apply Hu; congruence. }
  assert (Bv : isB g v = false) by (unfold isB; destruct (vty g v); auto; congruence).
  set (et := if etype_eqb e1 e2 then SIMPLE else HADAMARD).
  set (tab := [((v1, v2), one et)]).
  assert (K1 : In v1 (keep [v] g)) by (apply nbr_keep; auto; rewrite NB; left; auto).
  assert (K2 : In v2 (keep [v] g)) by (apply nbr_keep; auto; rewrite NB; right; left; auto).
  assert (TL : tabL (keep [v] g) tab).
  { split; [repeat constructor; intros []|]. intros s t. unfold cnt, tab. cbn [etab_get].
    destruct (ekeq (s, t) (v1, v2)) eqn:EK; [|left; auto]. apply ekeq_eq in EK. injection EK as -> ->. right. auto. }
  assert (SND : forall g1 g3, add_edge_table tab g = Ok g1 -> remove_vertices [v] g1 = Ok g3 -> step_ok g g3).
  { intros g1 g3 A1 A2. apply (batch_sound g [v] g tab g1 g3); auto.
    - constructor; [intros []|constructor].
    - intros u [<-|[]]. auto.
    - apply same_frame_refl.
    - exact (zx_ph g ZX).
    - intros x. rewrite one_sum by apply keep_no. f_equal. rewrite loc_single; auto.
      + rewrite NB. cbn [cprod]. unfold pw. rewrite Bv, C2'. unfold ephase. rewrite cexp_0. unfold ew. rewrite E1, E2. cbn [option_map].
        rewrite !Cmult_1_l, !Cmult_1_r, wt_id. unfold tabw, tab. cbn [cprod]. rewrite entw_one. rewrite Cmult_1_r. unfold nw. f_equal. f_equal. unfold et.
        destruct (isX g v), (isX g v1), (isX g v2), e1, e2; reflexivity.
      + apply keep_nd; auto.
      + apply keep_no.
      + intros u Hu. apply nbr_keep; auto. }
  set (o := mkRw g tab [v] [] false).
  destruct (apply_total g [v] o ZX BD) as [g' [A1 [A2 _]]].
  { constructor; cbn [o rw_graph rw_etab rw_verts rw_edges]; auto.
    - apply same_frame_refl.
    - constructor; [intros []|constructor].
    - intros u [<-|[]]. auto.
    - intros s t []. }
  { intros b Hb Tb. unfold o. cbn [rw_etab]. unfold tab. rewrite ttouch_cons. unfold ehit. cbn [fst snd]. replace (ttouch b []) with 0%nat by reflexivity.
    replace (fst (one et) + snd (one et))%nat with 1%nat by (destruct et; auto). unfold nadj. cbn [filter].
    destruct (connected g b v) eqn:CO.
    - apply connected_spec in CO. assert (I : In b (neighbors g v)) by (apply neighbors_spec; rewrite (wf_sym g W); auto). rewrite NB in I. cbn [length].
      destruct I as [<-|[<-|[]]]; rewrite Nat.eqb_refl, ?orb_true_r; auto.
    - assert (I : ~ In b (neighbors g v)) by (intros I; apply neighbors_spec in I; rewrite (wf_sym g W) in I; apply connected_spec in I; congruence). rewrite NB in I.
      destruct (Nat.eqb_spec v1 b) as [<-|]; [exfalso; apply I; left; auto|]. destruct (Nat.eqb_spec v2 b) as [<-|]; [exfalso; apply I; right; left; auto|]. auto. }
  { split; [constructor|intros s t []]. }
  { cbn [o rw_graph rw_etab rw_verts rw_edges]. intros g1 g2 g3 X1 X2 X3. injection X2 as <-. apply (SND g1 g3); auto. }
  unfold o in A1. rewrite apply_one in A1. inv_bind A1. rename E into T1. assert (T2 := T1). unfold tab in T2. rewrite table_one in T2. inv_bind T2.
  injection T2 as ->. rewrite E. cbn [bind]. rewrite A1. cbn [bind].
  destruct (SND _ _ T1 A1) as [Z1 Z2]. exists true, g'. split; auto. split; auto. split; auto. split; auto. split; auto.
  apply add_edge_spec in E; auto. destruct E as [W1 [F1 _]].
  rewrite (rm_vs _ _ _ (remove_vertices_spec _ _ _ W1 A1)). rewrite (proj1 F1). auto.
Qed.

(** *** fuse *)
Definition fusable (g : graph) (v1 v2 : nat) : bool :=
  (vtype_eqb (vty g v1) (vty g v2) && vertex_is_zx (vty g v1) && match edge_type g v1 v2 with Some SIMPLE => true | _ => false end)%bool.
Definition ftab (g : graph) (v1 v2 : nat) (us : list nat) : etab :=
  flat_map (fun u => if Nat.eqb u v1 then [] else match edge_type g v2 u with Some et => [((v1, u), one et)] | None => [] end) us.
Lemma fuse_table : forall v1 v2 us g h, wfg g -> wfg h -> v1 <> v2 -> edge_type g v2 v1 = Some SIMPLE ->
  (forall u, In u us -> u <> v2 /\ edge_type g v2 u <> None) -> (forall u, edge_type h v2 u = edge_type g v2 u) ->
  foldM (fuse_step v1 v2) (map (fun u => if Nat.ltb v2 u then (v2, u) else (u, v2)) us) h = add_edge_table (ftab g v1 v2 us) h.
Proof.
  induction us as [|u us IH]; intros g h W Wh N E H HE; [reflexivity|]. cbn [map foldM ftab flat_map].
  destruct (H u (or_introl eq_refl)) as [Nu Eu]. destruct (edge_type g v2 u) as [et|] eqn:EU; [|congruence].
  assert (ST : fuse_step v1 v2 h (if Nat.ltb v2 u then (v2, u) else (u, v2)) = if (Nat.eqb u v1 && etype_eqb et SIMPLE)%bool then Ok h else add_edge v1 u et h).
  { unfold fuse_step. destruct (Nat.ltb v2 u).
    - rewrite Nat.eqb_refl. cbn [negb]. rewrite (proj2 (Nat.eqb_neq u v2)) by auto. cbn [negb]. rewrite HE, EU. auto.
    - rewrite (proj2 (Nat.eqb_neq u v2)) by auto. cbn [negb]. rewrite (wf_sym h Wh), HE, EU. auto. }
  rewrite ST. destruct (Nat.eqb_spec u v1) as [->|N1].
  - replace et with SIMPLE by congruence. cbn [etype_eqb andb bind]. apply IH; auto. intros; apply H; right; auto.
  - cbn [andb]. change ([(v1, u, one et)] ++ ?l) with ((v1, u, one et) :: l). cbn [app]. rewrite table_one. destruct (add_edge v1 u et h) as [h1|] eqn:A; auto. cbn [bind].
    apply add_edge_spec in A; auto. destruct A as [W1 [F1 [_ [_ [NE _]]]]]. apply IH; auto; [intros; apply H; right; auto|].
    intros w. rewrite NE by congruence. auto.
Qed.
Lemma ftab_keys : forall g v1 v2 us, incl (map fst (ftab g v1 v2 us)) (map (fun u => (v1, u)) us).
Proof.
  intros g v1 v2 us e H. apply in_map_iff in H. destruct H as [[e' c] [<- H]]. unfold ftab in H. apply in_flat_map in H. destruct H as [u [Hu H]].
  destruct (Nat.eqb u v1); [destruct H|]. destruct (edge_type g v2 u); [|destruct H]. destruct H as [[= <- <-]|[]]. cbn [fst]. apply in_map_iff. eauto.
Qed.
Lemma ftab_nd : forall g v1 v2 us, NoDup us -> tab_nd (ftab g v1 v2 us).
Proof.
  intros g v1 v2. induction us as [|u us IH]; intros N; [constructor|]. inversion N as [|? ? N1 N2]; subst. unfold tab_nd in *. cbn [ftab flat_map].
  destruct (Nat.eqb u v1); [apply IH; auto|]. destruct (edge_type g v2 u); [|apply IH; auto]. cbn [app map fst]. constructor; [|apply IH; auto].
  intros I. apply ftab_keys in I. apply in_map_iff in I. destruct I as [w [[= ->] I]]. contradiction.
Qed.
Lemma ftab_w : forall g v1 v2 us x, isX g v1 = isX g v2 -> (forall u, In u us -> edge_type g v2 u <> None) ->
  tabw g (ftab g v1 v2 us) x = cprod (fun u => if Nat.eqb u v1 then C1 else ew g v2 u (x v1) (x u)) us.
Proof.
  intros g v1 v2 us x I. induction us as [|u us IH]; intros H; [reflexivity|]. cbn [ftab flat_map cprod]. specialize (IH (fun w Hw => H w (or_intror Hw))).
  specialize (H u (or_introl eq_refl)). destruct (Nat.eqb u v1); [rewrite Cmult_1_l; exact IH|].
  destruct (edge_type g v2 u) as [et|] eqn:E; [|congruence]. unfold tabw. cbn [app cprod]. fold (ftab g v1 v2 us). fold (tabw g (ftab g v1 v2 us) x). rewrite IH, entw_one.
  f_equal. unfold nw, ew. rewrite E, I. auto.
Qed.
Lemma ftab_touch : forall g v1 v2 us b, NoDup us -> b <> v1 -> (forall u, In u us -> edge_type g v2 u <> None) -> ttouch b (ftab g v1 v2 us) = if mem b us then 1%nat else 0%nat.
Proof.
  intros g v1 v2. induction us as [|u us IH]; intros b N Nb H; [reflexivity|]. inversion N as [|? ? N1 N2]; subst. cbn [ftab flat_map]. fold (ftab g v1 v2 us).
  specialize (IH b N2 Nb (fun w Hw => H w (or_intror Hw))). specialize (H u (or_introl eq_refl)). change (mem b (u :: us)) with (Nat.eqb b u || mem b us)%bool.
  destruct (Nat.eqb_spec u v1) as [->|N3].
  - cbn [app]. rewrite IH. rewrite (proj2 (Nat.eqb_neq b v1)) by auto. auto.
  - destruct (edge_type g v2 u) as [et|]; [|congruence]. cbn [app]. rewrite ttouch_cons. unfold ehit. cbn [fst snd]. rewrite IH.
    rewrite (proj2 (Nat.eqb_neq v1 b)) by auto. cbn [orb]. rewrite (Nat.eqb_sym u b). destruct (Nat.eqb_spec b u) as [->|N4]; cbn [orb].
    + replace (mem u us) with false by (symmetry; apply mem_false; auto). destruct et; auto.
    + destruct (mem b us); auto.
Qed.

Theorem fuse_ok : forall v1 v2 g, zxok g -> bdeg g -> In v1 (vertices g) -> exists b g', fuse v1 v2 g = Ok (b, g') /\ zxok g' /\ bdeg g' /\ same_map g g' /\
  b = fusable g v1 v2 /\ if b then vertices g' = keep [v2] g else g' = g.
Proof.
  intros v1 v2 g ZX BD Hv. assert (W := zx_wf g ZX). assert (NL := zx_noloop g ZX). unfold fuse, check_fuse. rewrite vtype_r_ok by auto. cbn [bind].
  assert (DEC : (let* ok := (if negb (connected g v1 v2) then Ok false else let* t2 := vtype_r g v2 in
     Ok (((vtype_eqb (vty g v1) XSP && vtype_eqb t2 XSP) || (vertex_is_z_like (vty g v1) && vertex_is_z_like t2)) && match edge_type g v1 v2 with Some SIMPLE => true | _ => false end)%bool) in Ok ok) = Ok (fusable g v1 v2)).
  { unfold fusable, connected. destruct (edge_type g v1 v2) as [e|] eqn:E; cbn [negb]; [|rewrite andb_false_r; reflexivity].
    rewrite vtype_r_ok by (auto; eapply edge_in_r; eauto). cbn [bind]. unfold vertex_is_z_like. destruct (vty g v1), (vty g v2), e; reflexivity. }
  assert (DEC' : (if negb (connected g v1 v2) then Ok false else let* t2 := vtype_r g v2 in
     Ok (((vtype_eqb (vty g v1) XSP && vtype_eqb t2 XSP) || (vertex_is_z_like (vty g v1) && vertex_is_z_like t2)) && match edge_type g v1 v2 with Some SIMPLE => true | _ => false end)%bool) = Ok (fusable g v1 v2)).
  { etransitivity; [|exact DEC]. destruct (if negb (connected g v1 v2) then _ else _); auto. }
  rewrite DEC'. clear DEC DEC'. cbn [bind]. destruct (fusable g v1 v2) eqn:FU; cbn [negb].
  2:{ exists false, g. split; auto. split; auto. split; auto. repeat split; auto. }
  unfold fusable in FU. apply andb_true_iff in FU. destruct FU as [FU E]. apply andb_true_iff in FU. destruct FU as [TT Z]. apply vtype_eqb_eq in TT.
  destruct (edge_type g v1 v2) as [[]|] eqn:E12; try discriminate. clear E.
  assert (E21 : edge_type g v2 v1 = Some SIMPLE) by (rewrite (wf_sym g W); auto).
  assert (N12 : v1 <> v2) by (intros ->; rewrite NL in E12; discriminate).
  assert (Hv2 : In v2 (vertices g)) by (eapply edge_in_r; eauto).
  assert (NB2 : vty g v2 <> BOUNDARY) by (rewrite <- TT; intros Q; rewrite Q in Z; discriminate).
  assert (B1 : isB g v1 = false) by (unfold isB; destruct (vty g v1); auto; discriminate).
  assert (B2 : isB g v2 = false) by (unfold isB; rewrite <- TT; destruct (vty g v1); auto; discriminate).
  assert (XX : isX g v1 = isX g v2) by (unfold isX; rewrite TT; auto).
  set (h := add_to_phase v1 (phase g v2) g). set (us := neighbors g v2). set (tab := ftab g v1 v2 us).
  assert (US : forall u, In u us -> u <> v2 /\ edge_type g v2 u <> None).
  { intros u Hu. apply neighbors_spec in Hu. split; auto. intros ->. apply Hu, NL. }
  assert (NU : NoDup us) by (apply neighbors_nd; auto).
  assert (Wh : wfg h) by (apply add_to_phase_wfg; auto).
  change (incident_edges h v2) with (map (fun u => if Nat.ltb v2 u then (v2, u) else (u, v2)) us).
  rewrite (fuse_table v1 v2 us g h) by auto. fold tab.
  assert (K1 : In v1 (keep [v2] g)) by (apply in_keep; split; auto; intros [Q|[]]; congruence).
  assert (TL : tabL (keep [v2] g) tab).
  { split; [apply ftab_nd; auto|]. intros s t. unfold cnt. destruct (etab_get (s, t) tab) as [c|] eqn:EG; [|left; auto]. right.
    assert (I := etab_get_in _ _ _ EG). unfold tab, ftab in I. apply in_flat_map in I. destruct I as [u [Hu I]]. destruct (Nat.eqb_spec u v1) as [|Nu]; [destruct I|].
    destruct (edge_type g v2 u); [|destruct I]. destruct I as [[= <- <- <-]|[]]. split; auto. split; auto. apply nbr_keep; auto. }
  assert (SND : forall g1 g3, add_edge_table tab h = Ok g1 -> remove_vertices [v2] g1 = Ok g3 -> step_ok g g3).
  { intros g1 g3 A1 A2. apply (batch_sound g [v2] h tab g1 g3); auto.
    - constructor; [intros []|constructor].
    - intros u [<-|[]]. auto.
    - apply add_to_phase_frame.
    - apply allph_add_to_phase; auto; [apply in02_closed| |exact (zx_ph g ZX)]. right. apply (zx_ph g ZX); auto.
    - intros x. rewrite one_sum by apply keep_no. rewrite (spider_local g v1 v2); auto.
      + unfold h. rewrite integL_add_to_phase by (auto; apply keep_nd; auto). unfold tab. rewrite ftab_w by (auto; intros u Hu; apply US; auto).
        unfold spider_eff. unfold pw. rewrite B2. fold us. ring.
      + apply keep_nd; auto.
      + apply keep_no.
      + intros u Hu. apply nbr_keep; auto.
      + split; auto. }
  set (o := mkRw h tab [v2] [] false).
  destruct (apply_total g [v2] o ZX BD) as [g' [A1 [A2 _]]].
  { constructor; cbn [o rw_graph rw_etab rw_verts rw_edges]; auto.
    - apply add_to_phase_frame.
    - constructor; [intros []|constructor].
    - intros u [<-|[]]. auto.
    - intros s t []. }
  { intros b Hb Tb. unfold o. cbn [rw_etab]. unfold tab. rewrite ftab_touch; auto.
    - unfold nadj. cbn [filter]. destruct (connected g b v2) eqn:CO.
      + apply connected_spec in CO. replace (mem b us) with true; auto. symmetry. apply mem_spec, neighbors_spec. rewrite (wf_sym g W); auto.
      + replace (mem b us) with false; auto. symmetry. apply mem_false. intros I. apply neighbors_spec in I. rewrite (wf_sym g W) in I. apply connected_spec in I. congruence.
    - intros ->. unfold isB in B1. rewrite Tb in B1. discriminate.
    - intros u Hu. apply US; auto. }
  { split; [constructor|intros s t []]. }
  { cbn [o rw_graph rw_etab rw_verts rw_edges]. intros g1 g2 g3 X1 X2 X3. injection X2 as <-. apply (SND g1 g3); auto. }
  unfold o in A1. rewrite apply_one in A1. inv_bind A1. rewrite E. cbn [bind]. rewrite A1. cbn [bind].
  destruct (SND _ _ E A1) as [Z1 Z2]. exists true, g'. split; auto. split; auto. split; auto. split; auto. split; auto.
  destruct (add_edge_table_effect (keep [v2] g) tab h a (keep_nd _ _ W) Wh (tabL_ok _ _ TL) E) as [W1 [F1 _]].
  rewrite (rm_vs _ _ _ (remove_vertices_spec _ _ _ W1 A1)). rewrite (proj1 F1). reflexivity.
Qed.
