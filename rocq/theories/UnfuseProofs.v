(** unspider: the value is kept. *)
From Coq Require Import Reals ZArith QArith Qcanon List Bool Arith Lia Permutation FunctionalExtensionality.
From Verif Require Import LinModel LinProofs CNum Base ScalarModel ScalarProofs GraphModel GraphSem SumLemmas GraphProofs GraphOps RulesModel RuleLemmas
  SpiderProofs IsoProofs IdProofs LcompProofs PivotProofs PivotMatch GrowProofs StoreProofs InvProofs BfixProofs TotalProofs GrowTotal
  GateModel CircSpec GateProofs GateMask AmpProofs CircGraphModel CircGraphProofs CircGraphFacts VerifyProofs GraphAlgModel GraphAlgProofs GraphAlgFacts
  ComposeProofs ApplyProofs ExtractModel ExtractSem ExtractMap ExtractClean ExtractCz ExtractFront ExtractNbrs SimpModel TidyModel TidySub.
Import ListNotations.
Open Scope nat_scope.

(** edges after the wires from u to ns are moved to v *)
Definition moved (u v : nat) (ns : list nat) (E : nat -> nat -> option etype) (a b : nat) : option etype :=
  if Nat.eqb a v && mem b ns then E u b else if Nat.eqb b v && mem a ns then E u a
  else if (Nat.eqb a u && mem b ns) || (Nat.eqb b u && mem a ns) then None else E a b.
(** what unfusing v from u does *)
Record unfused (u v : nat) (ns : list nat) (g h : graph) : Prop := mkunf {
  uf_wf : wfg h; uf_new : ~ In v (vertices g); uf_v : vertices h = vertices g ++ [v]; uf_s : gscalar h = gscalar g;
  uf_i : ginputs h = ginputs g; uf_o : goutputs h = goutputs g;
  uf_ty : forall w, vty h w = if Nat.eqb w v then vty g u else vty g w;
  uf_ph : forall w, w <> u -> w <> v -> phase h w = phase g w;
  uf_uv : (cexp (phase h u) * cexp (phase h v) = cexp (phase g u))%C;
  uf_e : forall a b, edge_type h a b = if pair_hit u v a b then Some SIMPLE else moved u v ns (edge_type g) a b }.

Lemma pair_hit_self : forall s t w, s <> t -> pair_hit s t w w = false.
Proof. intros. apply pair_hit_false; intros X; injection X; intros; congruence. Qed.

Lemma unfused_sem : forall u v ns g h, unfused u v ns g h -> wfg g -> noloop g -> In u (vertices g) -> isB g u = false -> ~ In u ns ->
  forall y, sem h y = sem g y.
Proof.
  intros u v ns g h [Wh Nv V S I O T P UV E] W NL Iu Bu Nu y. symmetry.
  assert (Duv : u <> v) by (intros ->; contradiction).
  assert (Vi : forall w, In w (vertices g) -> w <> v) by (intros w Hw ->; contradiction).
  assert (Ev : forall w, edge_type g v w = None /\ edge_type g w v = None) by (intros; apply edge_none_out; auto).
  assert (To : forall w, w <> v -> vty h w = vty g w) by (intros w X; rewrite T; destruct (Nat.eqb_spec w v); congruence).
  assert (Tv : vty h v = vty g u) by (rewrite T, Nat.eqb_refl; auto).
  set (rest := without [u] (vertices g)).
  assert (Hr : forall w, In w rest <-> In w (vertices g) /\ w <> u) by (intros w; unfold rest; rewrite in_without; simpl; intuition).
  assert (NR : NoDup rest) by (apply NoDup_filter; apply W).
  assert (Pg : Permutation (vertices g) ([u] ++ rest)).
  { apply nodup_same_perm; [apply W|constructor; auto; rewrite Hr; tauto|]. intros w. simpl. rewrite Hr. destruct (Nat.eq_dec u w); [subst; tauto|intuition congruence]. }
  assert (Ph : Permutation (vertices h) ([v] ++ [u] ++ rest)).
  { rewrite V. eapply Permutation_trans; [apply Permutation_app_comm|]. apply Permutation_app_head. auto. }
  apply (sem_sum_out h g [v] Wh).
  - repeat constructor; simpl; tauto.
  - intros w [<-|[]]. split; [rewrite V, in_app_iff; simpl; auto|]. unfold isB in *. rewrite Tv. auto.
  - rewrite V, filter_app. simpl. unfold mem. simpl. rewrite Nat.eqb_refl. simpl. rewrite app_nil_r. symmetry. apply filter_true. intros w Hw.
    destruct (Nat.eqb_spec w v); auto. subst; contradiction.
  - intros w Hw. unfold isB. rewrite To by auto. auto.
  - intros x.
    assert (R : integL rest h x = integL rest g x).
    { apply integL_ext; auto.
      - intros w Hw. apply Hr in Hw. split; [apply To; apply Vi; tauto|]. apply P; [tauto|apply Vi; tauto].
      - intros a b Ha Hb. apply Hr in Ha, Hb. assert (a <> v) by (apply Vi; tauto). assert (b <> v) by (apply Vi; tauto).
        rewrite E, pair_hit_false; try (intros X; injection X; intros; subst; tauto). unfold moved.
        rewrite (proj2 (Nat.eqb_neq a v)), (proj2 (Nat.eqb_neq b v)), (proj2 (Nat.eqb_neq a u)), (proj2 (Nat.eqb_neq b u)) by tauto. auto. }
    assert (Iv : ~ In v ([u] ++ rest)). { rewrite in_app_iff. simpl. rewrite Hr. intros [[->|[]]|[X _]]; auto. }
    assert (Eg : integL (vertices g) g x = (integL rest g x * (pw g u (x u) * cprod (fun w => ew g u w (x u) (x w)) rest))%C).
    { rewrite (integL_perm g _ _ _ W Pg), integL_app. cbn [cprod pprod]. ring. }
    assert (XX : xorb (isX h v) (isX h u) = false) by (unfold isX; rewrite Tv, To by auto; destruct (vtype_eqb _ _); auto).
    assert (Euv : edge_type h v u = Some SIMPLE) by (rewrite E, pair_hit_sym, pair_hit_st; auto).
    assert (Eh : forall c, integL (vertices h) h (upd x v c) = (dlt c (x u) * integL (vertices g) g x)%C).
    { intros c. rewrite (integL_perm h _ _ _ Wh Ph), integL_app, integL_indep by auto. rewrite integL_app, R, Eg. cbn [app cprod pprod].
      rewrite upd_same, upd_other by auto. assert (Ew : forall a b, ew h v u a b = dlt a b) by (intros; unfold ew; rewrite XX, Euv; auto). rewrite Ew.
      unfold dlt. destruct (Bool.eqb c (x u)) eqn:Ec; [|ring]. apply eqb_prop in Ec. subst c.
      rewrite (cprod_ext _ (fun w => ew h v w (x u) (upd x v (x u) w)) (fun w => ew h v w (x u) (x w))).
      2:{ intros w Hw. rewrite upd_other; auto. apply Vi. apply Hr in Hw. tauto. }
      assert (Q : (cprod (fun w => ew h u w (x u) (x w)) rest * cprod (fun w => ew h v w (x u) (x w)) rest = cprod (fun w => ew g u w (x u) (x w)) rest)%C).
      { rewrite <- cprod_mult. apply cprod_ext. intros w Hw. apply Hr in Hw. assert (w <> v) by (apply Vi; tauto).
        unfold ew. assert (X1 : isX h v = isX g u) by (unfold isX; rewrite Tv; auto). assert (X2 : isX h u = isX g u) by (unfold isX; rewrite To; auto).
        assert (X3 : isX h w = isX g w) by (unfold isX; rewrite To; auto). rewrite X1, X2, X3, !E.
        rewrite !pair_hit_false by (intros X; injection X; intros; subst; tauto). unfold moved.
        rewrite !Nat.eqb_refl, (proj2 (Nat.eqb_neq u v)), (proj2 (Nat.eqb_neq w v)), (proj2 (Nat.eqb_neq w u)), (proj2 (Nat.eqb_neq v u)) by (intuition congruence).
        cbn [andb orb]. destruct (mem w ns); cbn [orb].
        - change (option_map _ None) with (@None etype) at 1. cbn [wt]. ring.
        - rewrite (proj1 (Ev w)). cbn [option_map]. cbn [wt]. ring. }
      assert (QP : (pw h u (x u) * pw h v (x u) = pw g u (x u))%C).
      { unfold pw. unfold isB in *. rewrite Tv, To, Bu by auto. unfold ephase. destruct (x u); [exact UV|ring]. }
      rewrite <- QP, <- Q. ring. }
    cbn [sumv]. rewrite !Eh. unfold dlt. destruct (x u); cbn [Bool.eqb]; ring.
Qed.

(** the loop that moves the wires *)
Definition move_step (u v : nat) (g : graph) (n : nat) : res graph :=
  let* et := of_opt KeyError (edge_type g u n) in
  let* g := add_edge v n et g in
  remove_edge u n g.
Lemma move_ok : forall u v ns g, wfg g -> u <> v -> NoDup ns -> ~ In u ns -> ~ In v ns -> In v (vertices g) ->
  (forall n, In n ns -> edge_type g u n <> None /\ edge_type g v n = None) ->
  exists h, foldM (move_step u v) ns g = Ok h /\ wfg h /\ same_frame g h /\ gphase h = gphase g /\ gscalar h = gscalar g /\
    forall a b, edge_type h a b = moved u v ns (edge_type g) a b.
Proof.
  intros u v ns. induction ns as [|n ns IH]; intros g W D N Nu Nv Iv H.
  - exists g. split; auto. split; auto. split; [apply same_frame_refl|]. split; auto. split; auto. intros. unfold moved. simpl. rewrite !andb_false_r. auto.
  - destruct (H n (or_introl eq_refl)) as [H1 H2]. inversion N; subst. simpl in Nu, Nv. destruct (edge_type g u n) as [e|] eqn:En; [|congruence].
    assert (Dv : v <> n) by (intros X; apply Nv; auto). assert (Du : u <> n) by (intros X; apply Nu; auto).
    assert (In_ : In n (vertices g)) by (eapply edge_in_r; eauto).
    destruct (add_edge_ok v n e g W Dv) as [g1 A1]; auto.
    destruct (fresh_edge _ _ _ _ _ W Dv H2 A1) as [W1 [F1 [P1 [S1 [_ [_ ET1]]]]]].
    destruct (remove_edge_ok u n g1 e W1 Du) as [g2 A2]; [rewrite ET1, pair_hit_false; auto; intros X; injection X; intros; congruence|].
    assert (M : move_step u v g n = Ok g2) by (unfold move_step; rewrite En; cbn [of_opt bind]; rewrite A1; auto). cbn [foldM]. rewrite M. cbn [bind].
    destruct (remove_edge_spec _ _ _ _ W1 Du A2) as [W2 [F2 [P2 [S2 [_ [_ [_ ET2]]]]]]].
    destruct (IH g2 W2 D) as [h [A [Wh [F [Ph [Sh ET]]]]]]; auto.
    { rewrite (proj1 F2), (proj1 F1). auto. }
    { intros m Hm. destruct (H m (or_intror Hm)) as [X Y]. assert (m <> n) by congruence. assert (m <> u) by (intros ->; tauto). assert (m <> v) by (intros ->; tauto).
      rewrite !ET2, !ET1, !pair_hit_false by (intros Q; injection Q; intros; congruence). auto. }
    exists h. split; auto. split; auto. split; [eapply same_frame_trans; [exact F1|]; eapply same_frame_trans; eauto|]. split; [congruence|]. split; [congruence|].
    intros a b. rewrite ET. unfold moved, mem. cbn [existsb]. rewrite !ET2, !ET1.
    fold (mem a ns) (mem b ns).
    assert (Ma : mem a ns = true -> a <> n) by (intros X ->; apply mem_spec in X; contradiction).
    assert (Mb : mem b ns = true -> b <> n) by (intros X ->; apply mem_spec in X; contradiction).
    assert (Ma' : mem a ns = true -> a <> u /\ a <> v) by (intros X; apply mem_spec in X; split; intros ->; tauto).
    assert (Mb' : mem b ns = true -> b <> u /\ b <> v) by (intros X; apply mem_spec in X; split; intros ->; tauto).
    assert (Sg : edge_type g n u = Some e) by (rewrite wf_sym; auto).
    unfold pair_hit.
    destruct (mem a ns) eqn:Xa; [destruct (Ma' eq_refl); specialize (Ma eq_refl)|]; (destruct (mem b ns) eqn:Xb; [destruct (Mb' eq_refl); specialize (Mb eq_refl)|]);
    repeat (match goal with |- context[Nat.eqb ?p ?q] => destruct (Nat.eqb_spec p q); try congruence end; cbn [andb orb]); try congruence; try tauto; auto.
Qed.

(** ** The whole function *)
Definition new_phases (u v : nat) (p : option Qc) (g h : graph) : Prop :=
  match p with
  | Some p => phase h u = qmod2 (phase g u - p)%Qc /\ phase h v = qmod2 p
  | None => phase h u = 0%Qc /\ phase h v = phase g u
  end.
Lemma unspider_unfused : forall u ns p q r g, zinv g -> In u (vertices g) -> isB g u = false -> NoDup ns ->
  (forall n, In n ns -> edge_type g u n <> None) ->
  exists h v, unspider u ns p q r g = Ok (h, v) /\ unfused u v ns g h /\ new_phases u v p g h /\ rows_ok h /\ (forall w, In w (vertices h) -> in02 (phase h w)).
Proof.
  intros u ns p q r g Z Iu Bu N HN. assert (W := zx_wf _ (zi_zx _ Z)). assert (NL := zx_noloop _ (zi_zx _ Z)).
  assert (Nu : ~ In u ns) by (intros X; apply (HN u X); apply NL).
  unfold unspider. rewrite vtype_r_ok by auto. cbn [bind]. rewrite add_vertex_None by (apply (zx_zx _ (zi_zx _ Z)); auto).
  destruct (add_vertex (vty g u) (Qcz (-1)) (Qcz (-1)) (Some 0%Qc) g) as [g1 v] eqn:A1.
  destruct (add_vertex_spec _ _ _ _ _ _ _ W A1) as [Ew [W1 [V1 [ET1 [_ [T1 [P1 [I1 [O1 S1]]]]]]]]].
  destruct (add_vertex_rows _ _ _ _ _ _ _ W (zi_rows _ Z) A1) as [_ [R1 _]].
  assert (Fv : ~ In v (vertices g)) by (rewrite Ew; apply fresh_not_in; auto).
  assert (Duv : u <> v) by (intros ->; contradiction).
  assert (Ev : forall w, edge_type g v w = None /\ edge_type g w v = None) by (intros; apply edge_none_out; auto).
  set (g2 := set_row v _ _). assert (W2 : wfg g2) by (destruct W1; constructor; auto).
  assert (R2 : rows_ok g2).
  { intros w Hw. unfold g2, set_row. cbn [grindex with_rindex]. rewrite dget_dset. destruct (Nat.eqb w v); [discriminate|]. apply R1. exact Hw. }
  assert (V2 : vertices g2 = vertices g ++ [v]) by exact V1.
  assert (Vi : forall w, In w (vertices g2) <-> In w (vertices g) \/ w = v) by (intros w; rewrite V2, in_app_iff; simpl; intuition).
  assert (ET2 : forall a b, edge_type g2 a b = edge_type g a b) by exact ET1.
  assert (T2 : forall w, vty g2 w = if Nat.eqb w v then vty g u else vty g w) by exact T1.
  assert (P2 : forall w, phase g2 w = if Nat.eqb w v then 0%Qc else phase g w) by (intros w; rewrite <- qmod2_0 at 1; exact (P1 w)).
  assert (I2 : ginputs g2 = ginputs g) by exact I1. assert (O2 : goutputs g2 = goutputs g) by exact O1. assert (S2 : gscalar g2 = gscalar g) by exact S1.
  clearbody g2. clear R1 V1 ET1 T1 P1 I1 O1 S1 W1 A1 g1.
  assert (E2 : edge_type g2 u v = None) by (rewrite ET2; apply Ev).
  destruct (add_edge_ok u v SIMPLE g2 W2 Duv) as [g3 A3]; [apply Vi; auto|apply Vi; auto|left; auto|]. rewrite A3. cbn [bind].
  destruct (fresh_edge _ _ _ _ _ W2 Duv E2 A3) as [W3 [F3 [P3 [S3 [_ [_ ET3]]]]]].
  assert (Nv : ~ In v ns). { intros X. apply (HN v X). apply Ev. }
  destruct (move_ok u v ns g3 W3 Duv N Nu Nv) as [g4 [A4 [W4 [F4 [P4 [S4 ET4]]]]]].
  { rewrite (proj1 F3). apply Vi. auto. }
  { intros n Hn. assert (n <> u) by congruence. assert (n <> v) by congruence. rewrite !ET3, !ET2, !pair_hit_false by (intros X; injection X; intros; congruence).
    split; [apply HN; auto|apply Ev]. }
  unfold move_step in A4. rewrite A4. cbn [bind]. clear A4 A3.
  assert (F : same_frame g2 g4) by (eapply same_frame_trans; eauto).
  assert (V4 : vertices g4 = vertices g ++ [v]) by (rewrite (proj1 F); auto).
  assert (T4 : forall w, vty g4 w = if Nat.eqb w v then vty g u else vty g w) by (intros; rewrite (same_frame_vty g2 g4) by auto; apply T2).
  assert (P4' : forall w, phase g4 w = if Nat.eqb w v then 0%Qc else phase g w) by (intros; rewrite <- P2; unfold phase; rewrite P4, P3; auto).
  assert (I4 : ginputs g4 = ginputs g) by (destruct F as [_ [_ [-> _]]]; auto).
  assert (O4 : goutputs g4 = goutputs g) by (destruct F as [_ [_ [_ [-> _]]]]; auto).
  assert (S4' : gscalar g4 = gscalar g) by congruence.
  assert (R4 : rows_ok g4). { intros w Hw. destruct F as [FV [_ [_ [_ [_ [_ FR]]]]]]. rewrite FR. apply R2. rewrite <- FV. auto. }
  assert (ET : forall a b, edge_type g4 a b = if pair_hit u v a b then Some SIMPLE else moved u v ns (edge_type g) a b).
  { intros a b. rewrite ET4. unfold moved. rewrite !ET3, !ET2.
    assert (Ma : mem a ns = true -> a <> u /\ a <> v) by (intros X; apply mem_spec in X; split; intros ->; tauto).
    assert (Mb : mem b ns = true -> b <> u /\ b <> v) by (intros X; apply mem_spec in X; split; intros ->; tauto).
    unfold pair_hit. destruct (mem a ns); [destruct (Ma eq_refl)|]; (destruct (mem b ns); [destruct (Mb eq_refl)|]);
    repeat (match goal with |- context[Nat.eqb ?p ?q] => destruct (Nat.eqb_spec p q); try congruence end; cbn [andb orb]); try congruence; auto. }
  assert (Iu4 : In u (vertices g4)) by (rewrite V4, in_app_iff; auto). assert (Iv4 : In v (vertices g4)) by (rewrite V4, in_app_iff; simpl; auto).
  assert (Puv : phase g4 v = 0%Qc) by (rewrite P4', Nat.eqb_refl; auto).
  assert (Puu : phase g4 u = phase g u) by (rewrite P4', (proj2 (Nat.eqb_neq u v)); auto).
  assert (Ph02 : forall w, In w (vertices g4) -> in02 (phase g4 w)).
  { intros w Hw. rewrite P4'. destruct (Nat.eqb_spec w v); [rewrite <- qmod2_0; apply qmod2_range|]. apply (zx_ph _ (zi_zx _ Z)).
    rewrite V4, in_app_iff in Hw. simpl in Hw. intuition congruence. }
  assert (Hu02 : qmod2 (phase g u) = phase g u) by (apply qmod2_id; apply (zx_ph _ (zi_zx _ Z)); auto).
  destruct p as [p|].
  - set (h := add_to_phase u (0 - p)%Qc (add_to_phase v p g4)). exists h, v. split; auto.
    assert (PH : forall w, phase h w = if Nat.eqb w u then qmod2 (phase g u + (0 - p))%Qc else if Nat.eqb w v then qmod2 p else phase g4 w).
    { intros w. unfold h. rewrite !phase_add_to_phase, (proj2 (Nat.eqb_neq u v)), Puv, Puu, Qcplus_0_l by auto. auto. }
    assert (PHu : phase h u = qmod2 (phase g u + (0 - p))%Qc) by (rewrite PH, Nat.eqb_refl; auto).
    assert (PHv : phase h v = qmod2 p) by (rewrite PH, Nat.eqb_refl, (proj2 (Nat.eqb_neq v u)); auto).
    split; [|split; [|split]].
    + constructor; auto.
      * unfold h. apply add_to_phase_wfg; [apply add_to_phase_wfg; auto|]. exact Iu4.
      * intros w X Y. rewrite PH, (proj2 (Nat.eqb_neq w u)), (proj2 (Nat.eqb_neq w v)), P4', (proj2 (Nat.eqb_neq w v)) by auto. auto.
      * rewrite PHu, PHv, !cexp_qmod2, <- cexp_add. f_equal. ring.
    + unfold new_phases. rewrite PHu, PHv. split; auto. f_equal. ring.
    + exact R4.
    + intros w Hw. rewrite PH. destruct (Nat.eqb w u); [apply qmod2_range|]. destruct (Nat.eqb w v); [apply qmod2_range|]. apply Ph02. exact Hw.
  - set (h := set_phase u 0%Qc (set_phase v (phase g4 u) g4)). exists h, v. split; auto.
    assert (PH : forall w, phase h w = if Nat.eqb w u then 0%Qc else if Nat.eqb w v then phase g u else phase g4 w).
    { intros w. unfold h. rewrite !phase_set_phase, Puu, Hu02, qmod2_0. auto. }
    assert (PHu : phase h u = 0%Qc) by (rewrite PH, Nat.eqb_refl; auto).
    assert (PHv : phase h v = phase g u) by (rewrite PH, Nat.eqb_refl, (proj2 (Nat.eqb_neq v u)); auto).
    split; [|split; [|split]].
    + constructor; auto.
      * unfold h. apply set_phase_wfg; [apply set_phase_wfg; auto|]. exact Iu4.
      * intros w X Y. rewrite PH, (proj2 (Nat.eqb_neq w u)), (proj2 (Nat.eqb_neq w v)), P4', (proj2 (Nat.eqb_neq w v)) by auto. auto.
      * rewrite PHu, PHv, cexp_0. ring.
    + split; auto.
    + exact R4.
    + intros w Hw. rewrite PH. destruct (Nat.eqb w u); [rewrite <- qmod2_0; apply qmod2_range|]. destruct (Nat.eqb w v); [apply (zx_ph _ (zi_zx _ Z)); auto|]. apply Ph02. exact Hw.
Qed.

(** the neighbours of u and v afterwards *)
Record splits (u v : nat) (ns : list nat) (p : option Qc) (g h : graph) : Prop := mksplits {
  sp_new : ~ In v (vertices g); sp_v : vertices h = vertices g ++ [v]; sp_ty : vty h v = vty g u;
  sp_uv : edge_type h u v = Some SIMPLE;
  sp_vn : forall n, n <> u -> edge_type h v n = if mem n ns then edge_type g u n else None;
  sp_un : forall n, n <> v -> edge_type h u n = if mem n ns then None else edge_type g u n;
  sp_rest : forall a b, a <> u -> a <> v -> b <> u -> b <> v -> edge_type h a b = edge_type g a b;
  sp_ph : new_phases u v p g h;
  sp_keep : forall w, w <> v -> vty h w = vty g w /\ (w <> u -> phase h w = phase g w) }.
Theorem unspider_ok : forall u ns p q r g, zinv g -> In u (vertices g) -> vty g u <> BOUNDARY -> NoDup ns ->
  (forall n, In n ns -> In n (neighbors g u)) ->
  exists h v, unspider u ns p q r g = Ok (h, v) /\ zinv h /\ same_map g h /\ splits u v ns p g h.
Proof.
  intros u ns p q r g Z Iu Tu N HN. assert (W := zx_wf _ (zi_zx _ Z)). assert (NL := zx_noloop _ (zi_zx _ Z)).
  assert (Bu : isB g u = false) by (unfold isB; destruct (vtype_eqb (vty g u) BOUNDARY) eqn:X; auto; apply vtype_eqb_eq in X; contradiction).
  assert (HN' : forall n, In n ns -> edge_type g u n <> None) by (intros n Hn; apply neighbors_spec; auto). clear HN.
  assert (Nu : ~ In u ns) by (intros X; apply (HN' u X); apply NL).
  destruct (unspider_unfused u ns p q r g Z Iu Bu N HN') as [h [v [A [U [PH [R P02]]]]]].
  exists h, v. split; auto. assert (SEM := unfused_sem u v ns g h U W NL Iu Bu Nu).
  destruct U as [Wh Nv V S I O T P UV E].
  assert (Duv : u <> v) by (intros ->; contradiction).
  assert (Ev : forall w, edge_type g v w = None /\ edge_type g w v = None) by (intros; apply edge_none_out; auto).
  assert (Vi : forall w, In w (vertices h) <-> In w (vertices g) \/ w = v) by (intros w; rewrite V, in_app_iff; simpl; intuition).
  assert (To : forall w, w <> v -> vty h w = vty g w) by (intros w X; rewrite T; destruct (Nat.eqb_spec w v); congruence).
  assert (Tv : vty h v = vty g u) by (rewrite T, Nat.eqb_refl; auto).
  assert (Nv' : ~ In v ns). { intros X. apply (HN' v X). apply Ev. }
  assert (Evn : forall n, n <> u -> edge_type h v n = if mem n ns then edge_type g u n else None).
  { intros n X. rewrite E, pair_hit_false by (intros Y; injection Y; intros; congruence). unfold moved. rewrite Nat.eqb_refl. cbn [andb].
    destruct (mem n ns); auto. rewrite andb_false_r. rewrite (proj2 (Nat.eqb_neq n u)) by auto. cbn [andb orb]. 
    replace (mem v ns) with false by (symmetry; apply mem_false; auto). rewrite !andb_false_r. cbn. apply Ev. }
  assert (Eun : forall n, n <> v -> edge_type h u n = if mem n ns then None else edge_type g u n).
  { intros n X. rewrite E, pair_hit_false by (intros Y; injection Y; intros; congruence). unfold moved. rewrite Nat.eqb_refl, (proj2 (Nat.eqb_neq u v)), (proj2 (Nat.eqb_neq n v)) by auto. cbn [andb orb].
    destruct (mem n ns); auto. replace (mem u ns) with false by (symmetry; apply mem_false; auto). rewrite andb_false_r. auto. }
  assert (Er : forall a b, a <> u -> a <> v -> b <> u -> b <> v -> edge_type h a b = edge_type g a b).
  { intros a b X1 X2 X3 X4. rewrite E, pair_hit_false by (intros Y; injection Y; intros; congruence). unfold moved.
    rewrite (proj2 (Nat.eqb_neq a u)), (proj2 (Nat.eqb_neq a v)), (proj2 (Nat.eqb_neq b u)), (proj2 (Nat.eqb_neq b v)) by auto. auto. }
  assert (Euv : edge_type h u v = Some SIMPLE) by (rewrite E, pair_hit_st; auto).
  split; [|split; [split; [|split]|]]; auto.
  - assert (TB : forall b, In b (vertices h) -> vty h b = BOUNDARY -> In b (vertices g) /\ vty g b = BOUNDARY /\ b <> v /\ b <> u).
    { intros b Hb Tb. assert (b <> v) by congruence. rewrite To in Tb by auto. apply Vi in Hb. intuition congruence. }
    constructor.
    + constructor; auto.
      * intros w. destruct (Nat.eq_dec w v) as [->|]; [rewrite Evn by auto; replace (mem v ns) with false by (symmetry; apply mem_false; auto); auto|].
        destruct (Nat.eq_dec w u) as [->|]; [rewrite Eun, NL by auto; destruct (mem u ns); auto|]. rewrite Er by auto. apply NL.
      * intros w Hw. apply Vi in Hw. destruct (Nat.eq_dec w v) as [->|]; [rewrite Tv; apply (zx_zx _ (zi_zx _ Z)); auto|]. rewrite To by auto. apply (zx_zx _ (zi_zx _ Z)). tauto.
      * rewrite I, O. intros w Hw. destruct (zx_io _ (zi_zx _ Z) w Hw) as [X Y]. split; [apply Vi; auto|]. unfold isB in *. rewrite To; auto. congruence.
    + intros b Hb Tb. destruct (TB b Hb Tb) as [Ib [Tb' [Dv Du]]]. destruct (zi_deg _ Z b Ib Tb') as [w Hw].
      destruct (Nat.eq_dec w u) as [->|Dw].
      * destruct (mem b ns) eqn:M.
        -- exists v. intros x. destruct (Nat.eq_dec x v) as [->|]; [rewrite (wf_sym h), Evn, M by auto; split; auto; intros _; rewrite wf_sym by auto; apply Hw; auto|].
           destruct (Nat.eq_dec x u) as [->|]; [rewrite (wf_sym h), Eun, M by auto; split; congruence|]. rewrite Er by auto. rewrite Hw. split; congruence.
        -- exists u. intros x. destruct (Nat.eq_dec x v) as [->|]; [rewrite (wf_sym h), Evn, M by auto; split; congruence|].
           destruct (Nat.eq_dec x u) as [->|]; [rewrite (wf_sym h), Eun, M by auto; split; auto; intros _; rewrite wf_sym by auto; apply Hw; auto|]. rewrite Er by auto. rewrite Hw. tauto.
      * exists w. assert (Eb : edge_type g u b = None). { destruct (edge_type g u b) eqn:X; auto. exfalso. apply Dw. symmetry. apply Hw. rewrite wf_sym by auto. congruence. }
        assert (M : mem b ns = false) by (apply mem_false; intros X; apply (HN' b X); auto).
        assert (Dwv : w <> v). { intros ->. apply (proj2 (Hw v) eq_refl). apply Ev. }
        intros x. destruct (Nat.eq_dec x v) as [->|]; [rewrite (wf_sym h), Evn, M by auto; split; congruence|].
        destruct (Nat.eq_dec x u) as [->|]; [rewrite (wf_sym h), Eun, M, Eb by auto; split; congruence|]. rewrite Er by auto. apply Hw.
    + intros b Hb Tb. destruct (TB b Hb Tb) as [Ib [Tb' [Dv Du]]]. rewrite P by auto. apply (zi_ph _ Z); auto.
    + exact R.
    + intros b Hb Tb. destruct (TB b Hb Tb) as [Ib [Tb' _]]. rewrite I, O. apply (zi_io _ Z); auto.
  - constructor; auto.
Qed.
