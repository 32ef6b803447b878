(** congruences.py: pivot_cong keeps the map up to a factor. *)
From Coq Require Import Reals ZArith QArith Qcanon List Bool Arith Lia Lra Permutation Ring.
From Verif Require Import CNum Base ScalarModel ScalarProofs GraphModel GraphSem SumLemmas GraphProofs GraphOps RulesModel RuleLemmas
  SpiderProofs IsoProofs IdProofs LcompProofs PivotProofs PivotMatch GrowProofs StoreProofs InvProofs BfixProofs TotalProofs AmpProofs ZXFacts.
From Verif Require UnfuseProofs.
From Verif Require Import CongModel CongProofs.
Import ListNotations.
Open Scope nat_scope.

Notation moved := UnfuseProofs.moved.
Notation unfused := UnfuseProofs.unfused.

Lemma move2_ok : forall u v ns g, wfg g -> u <> v -> NoDup ns -> ~ In u ns -> ~ In v ns -> In v (vertices g) ->
  (forall n, In n ns -> edge_type g u n <> None /\ edge_type g v n = None) ->
  exists h, foldM (unfuse_one u v) ns g = Ok h /\ wfg h /\ same_frame g h /\ gphase h = gphase g /\ gscalar h = gscalar g /\
    forall a b, edge_type h a b = moved u v ns (edge_type g) a b.
Proof.
  intros u v ns. induction ns as [|n ns IH]; intros g W D N Nu Nv Iv H.
  - exists g. split; auto. split; auto. split; [apply same_frame_refl|]. split; auto. split; auto. intros. unfold UnfuseProofs.moved. simpl. rewrite !andb_false_r. auto.
  - destruct (H n (or_introl eq_refl)) as [H1 H2]. inversion N; subst. simpl in Nu, Nv. destruct (edge_type g u n) as [e|] eqn:En; [|congruence].
    assert (Dv : v <> n) by (intros X; apply Nv; auto). assert (Du : u <> n) by (intros X; apply Nu; auto).
    assert (In_ : In n (vertices g)) by (eapply edge_in_r; eauto).
    destruct (rem_e_ok u n e g W Du En) as [g1 [A1 [W1 [F1 [P1 [S1 ET1]]]]]].
    destruct (add_e_fresh v n e g1 W1 Dv) as [g2 [A2 [W2 [F2 [P2 [S2 ET2]]]]]]; try (rewrite (proj1 F1); auto).
    { rewrite ET1, pair_hit_false; auto; intros X; injection X; intros; congruence. }
    assert (M : unfuse_one u v g n = Ok g2) by (unfold unfuse_one; rewrite En; cbn [of_opt bind]; rewrite A1; auto). cbn [foldM]. rewrite M. cbn [bind].
    destruct (IH g2 W2 D) as [h [A [Wh [F [Ph [Sh ET]]]]]]; auto.
    { rewrite (proj1 F2), (proj1 F1). auto. }
    { intros m Hm. destruct (H m (or_intror Hm)) as [X Y]. assert (m <> n) by congruence. assert (m <> u) by (intros ->; tauto). assert (m <> v) by (intros ->; tauto).
      rewrite !ET2, !ET1, !pair_hit_false by (intros Q; injection Q; intros; congruence). auto. }
    exists h. split; auto. split; auto. split; [eapply same_frame_trans; [exact F1|]; eapply same_frame_trans; eauto|]. split; [congruence|]. split; [congruence|].
    intros a b. rewrite ET. unfold UnfuseProofs.moved, mem. cbn [existsb]. rewrite !ET2, !ET1.
    fold (mem a ns) (mem b ns).
    assert (Ma : mem a ns = true -> a <> n) by (intros X ->; apply mem_spec in X; contradiction).
    assert (Mb : mem b ns = true -> b <> n) by (intros X ->; apply mem_spec in X; contradiction).
    assert (Ma' : mem a ns = true -> a <> u /\ a <> v) by (intros X; apply mem_spec in X; split; intros ->; tauto).
    assert (Mb' : mem b ns = true -> b <> u /\ b <> v) by (intros X; apply mem_spec in X; split; intros ->; tauto).
    assert (Sg : edge_type g n u = Some e) by (rewrite wf_sym; auto).
    unfold pair_hit.
    destruct (mem a ns) eqn:Xa; [destruct (Ma' eq_refl); specialize (Ma eq_refl)|]; (destruct (mem b ns) eqn:Xb; [destruct (Mb' eq_refl); specialize (Mb eq_refl)|]);
    repeat (match goal with |- context[Nat.eqb ?p ?q] => destruct (Nat.eqb_spec p q); try congruence end; cbn [andb orb]); try congruence; try tauto; auto.
Qed.

Definition bnbrs (g : graph) (v : nat) : list nat := filter (fun b => vtype_eqb (vty g b) BOUNDARY) (neighbors g v).
Lemma in_bnbrs : forall g v b, In b (bnbrs g v) <-> edge_type g v b <> None /\ vty g b = BOUNDARY.
Proof. intros. unfold bnbrs. rewrite filter_In, neighbors_spec, vtype_eqb_eq. tauto. Qed.
Lemma set_phase_same : forall v q g, phase (set_phase v q g) v = qmod2 q.
Proof. intros. unfold phase, set_phase. cbn [gphase with_phase]. rewrite dget_dset, Nat.eqb_refl. reflexivity. Qed.
Lemma set_phase_other : forall v q g w, w <> v -> phase (set_phase v q g) w = phase g w.
Proof. intros. unfold phase, set_phase. cbn [gphase with_phase]. rewrite dget_dset. rewrite (proj2 (Nat.eqb_neq w v)) by auto. reflexivity. Qed.
Lemma unfuse_ok : forall v g, wfg g -> noloop g -> In v (vertices g) -> vty g v = ZSP ->
  exists h nv, unfuse v g = Ok (h, nv) /\ unfused v nv (bnbrs g v) g h /\ phase h v = qmod2 0 /\ phase h nv = qmod2 (phase g v).
Proof.
  intros v g W NL Hv Tv. unfold unfuse. fold (bnbrs g v).
  destruct (add_vertex ZSP _ _ (Some (phase g v)) g) as [g1 nv] eqn:A1.
  destruct (add_vertex_spec _ _ _ _ _ _ _ W A1) as [Ev [W1 [V1 [ET1 [_ [T1 [P1 [I1 [O1 S1]]]]]]]]].
  assert (Fv : ~ In nv (vertices g)) by (apply vertices_pv_fresh; auto). assert (D : v <> nv) by (intros <-; contradiction).
  assert (En : forall w, edge_type g nv w = None) by (intros w; exact (proj1 (edge_none_out g nv w W Fv))).
  set (g2 := set_phase v 0%Qc g1). assert (Hv1 : In v (vertices g1)) by (rewrite V1, in_app_iff; auto).
  assert (W2 : wfg g2) by (apply set_phase_wf; auto).
  destruct (add_e_fresh v nv SIMPLE g2 W2 D) as [g3 [A3 [W3 [F3 [P3 [S3 ET3]]]]]]; auto.
  { change (vertices g2) with (vertices g1). rewrite V1, in_app_iff. simpl. auto. }
  { change (edge_type g1 v nv = None). rewrite ET1, (wf_sym g W). auto. }
  assert (ET3' : forall a b, edge_type g3 a b = if pair_hit v nv a b then Some SIMPLE else edge_type g a b) by (intros a b; rewrite ET3; change (edge_type g2 a b) with (edge_type g1 a b); rewrite ET1; auto).
  rewrite A3. cbn [bind].
  assert (Nu : ~ In v (bnbrs g v)) by (rewrite in_bnbrs, Tv; intros [_ X]; discriminate).
  assert (Nn : ~ In nv (bnbrs g v)) by (rewrite in_bnbrs; intros [X _]; apply X; rewrite (wf_sym g W); auto).
  destruct (move2_ok v nv (bnbrs g v) g3 W3 D) as [h [A [Wh [F [Ph [Sh ET]]]]]]; auto.
  { apply NoDup_filter. apply neighbors_nd; auto. }
  { rewrite (proj1 F3). change (vertices g2) with (vertices g1). rewrite V1, in_app_iff. simpl. auto. }
  { intros n Hn. assert (n <> nv) by (intros ->; contradiction). assert (n <> v) by (intros ->; contradiction). rewrite !ET3', !pair_hit_false by (intros Q; injection Q; intros; congruence).
    apply in_bnbrs in Hn. split; [tauto|auto]. }
  rewrite A. cbn [bind]. exists h, nv. split; auto.
  assert (PH : forall w, phase h w = phase g2 w) by (intros w; unfold phase; rewrite Ph, P3; auto).
  assert (Pv : phase h v = qmod2 0) by (rewrite PH; apply set_phase_same).
  assert (Pn : phase h nv = qmod2 (phase g v)) by (rewrite PH; unfold g2; rewrite set_phase_other, P1, Nat.eqb_refl by auto; auto).
  split; [|auto]. constructor; auto.
  - rewrite (proj1 F), (proj1 F3). exact V1.
  - rewrite Sh, S3. exact S1.
  - destruct F as [_ [_ [-> _]]]. destruct F3 as [_ [_ [-> _]]]. exact I1.
  - destruct F as [_ [_ [_ [-> _]]]]. destruct F3 as [_ [_ [_ [-> _]]]]. exact O1.
  - intros w. rewrite (same_frame_vty _ _ w F), (same_frame_vty _ _ w F3). change (vty g2 w) with (vty g1 w). rewrite T1, Tv. auto.
  - intros w X Y. rewrite PH. unfold g2. rewrite set_phase_other, P1, (proj2 (Nat.eqb_neq w nv)) by auto. auto.
  - rewrite Pv, Pn, !cexp_qmod2, cexp_0. ring.
  - intros a b. rewrite ET. unfold UnfuseProofs.moved. rewrite !ET3'.
    assert (Ma : mem a (bnbrs g v) = true -> a <> v /\ a <> nv) by (intros X; apply mem_spec in X; split; intros ->; tauto).
    assert (Mb : mem b (bnbrs g v) = true -> b <> v /\ b <> nv) by (intros X; apply mem_spec in X; split; intros ->; tauto).
    unfold pair_hit. destruct (mem a (bnbrs g v)); [destruct (Ma eq_refl)|]; (destruct (mem b (bnbrs g v)); [destruct (Mb eq_refl)|]);
    repeat (match goal with |- context[Nat.eqb ?p ?q] => destruct (Nat.eqb_spec p q); try congruence end; cbn [andb orb]); try congruence; auto.
Qed.

(** ** Products *)
Lemma cprod_supp : forall (h : nat -> C) L N0, NoDup L -> NoDup N0 -> (forall v, In v N0 -> In v L) -> (forall v, In v L -> ~ In v N0 -> h v = C1) -> cprod h L = cprod h N0.
Proof.
  intros h L N0 HL HN HS H1. assert (P : Permutation (filter (fun v => mem v N0) L) N0).
  { apply nodup_same_perm; auto. { apply NoDup_filter; auto. } intros a. rewrite filter_In, mem_spec. split; [tauto|auto]. }
  rewrite <- (cprod_perm _ _ _ _ P). clear P HS HL. induction L as [|a L IH]; cbn [filter cprod]; auto.
  destruct (mem a N0) eqn:E; cbn [cprod]; rewrite IH by (intros; apply H1; simpl; auto); auto.
  rewrite H1; [ring|simpl; auto|]. intros X. apply mem_spec in X. congruence.
Qed.
Lemma cprod_sgn_prod : forall x l1 l2, cprod (fun e : edge => sgn (x (fst e) && x (snd e))) (list_prod l1 l2) = sgn (parity x l1 && parity x l2).
Proof.
  intros x l1 l2. induction l1 as [|a l1 IH]; [reflexivity|]. cbn [list_prod]. rewrite cprod_app, cprod_map, IH. cbn [fst snd].
  rewrite cprod_sgn_and. change (parity x (a :: l1)) with (xorb (x a) (parity x l1)). destruct (x a), (parity x l1), (parity x l2); cbn; unfold sgn; ring.
Qed.
Lemma cprod_ephase1 : forall (x : assignment) l, cprod (fun v => ephase 1 (x v)) l = sgn (parity x l).
Proof. intros. rewrite <- cprod_sgn. apply cprod_ext. intros v _. unfold ephase, sgn. destruct (x v); auto. rewrite cexp_1. auto. Qed.

(** ** Ends of the pivot: pulling both phases out and crossing the new wires *)
Record crossed (v1 v2 n1 n2 : nat) (g h : graph) : Prop := mkcrossed {
  cr_wf : wfg h; cr_v : vertices h = vertices g ++ [n1; n2]; cr_n1 : ~ In n1 (vertices g); cr_n2 : ~ In n2 (vertices g); cr_d : n1 <> n2;
  cr_s : gscalar h = gscalar g; cr_i : ginputs h = ginputs g; cr_o : goutputs h = goutputs g;
  cr_t1 : vty h n1 = ZSP; cr_t2 : vty h n2 = ZSP; cr_t : forall w, In w (vertices g) -> vty h w = vty g w;
  cr_p : forall w, In w (vertices g) -> w <> v1 -> w <> v2 -> phase h w = phase g w;
  cr_p1 : phase h v1 = qmod2 0; cr_p2 : phase h v2 = qmod2 0; cr_q1 : phase h n1 = qmod2 (phase g v1); cr_q2 : phase h n2 = qmod2 (phase g v2);
  cr_e : forall a b, edge_type h a b =
    if pair_hit v2 n1 a b then Some HADAMARD else if pair_hit v1 n2 a b then Some HADAMARD else if pair_hit v2 n2 a b then None else if pair_hit v1 n1 a b then None
    else moved v2 n2 (bnbrs g v2) (moved v1 n1 (bnbrs g v1) (edge_type g)) a b }.
Lemma cross_ok : forall v1 v2 g, gok g -> In v1 (vertices g) -> In v2 (vertices g) -> v1 <> v2 -> vty g v1 = ZSP -> vty g v2 = ZSP ->
  exists h n1 n2, (let* (g, n1) := unfuse v1 g in
    let* (g, n2) := unfuse v2 g in
    let* g := rem_e v1 n1 g in let* g := rem_e v2 n2 g in
    let* g := add_e v1 n2 HADAMARD g in add_e v2 n1 HADAMARD g) = Ok h /\ crossed v1 v2 n1 n2 g h.
Proof.
  intros v1 v2 g [W [NL GL]] H1 H2 D T1 T2.
  destruct (unfuse_ok v1 g W NL H1 T1) as [h1 [n1 [A1 [U1 [P1 Q1]]]]]. assert (U1' := U1). destruct U1' as [W1 N1 V1 S1 I1 O1 Ty1 Ph1 _ E1].
  rewrite T1 in Ty1.
  assert (D11 : v1 <> n1) by (intros ->; contradiction). assert (D21 : v2 <> n1) by (intros ->; contradiction).
  assert (En1 : forall w, edge_type g n1 w = None) by (intros w; exact (proj1 (edge_none_out g n1 w W N1))).
  assert (En1' : forall w, edge_type g w n1 = None) by (intros w; exact (proj2 (edge_none_out g n1 w W N1))).
  assert (B1 : forall w, In w (bnbrs g v1) -> w <> v1 /\ w <> v2 /\ w <> n1 /\ In w (vertices g)).
  { intros w Hw. apply in_bnbrs in Hw. destruct Hw as [X Y]. destruct (edge_type g v1 w) eqn:E; [|congruence]. assert (In w (vertices g)) by (eapply edge_in_r; eauto).
    repeat split; auto; intros ->; congruence. }
  assert (NL1 : noloop h1).
  { intros w. rewrite E1, UnfuseProofs.pair_hit_self by auto. unfold UnfuseProofs.moved. destruct (mem w (bnbrs g v1)) eqn:M.
    - apply mem_spec in M. destruct (B1 w M) as [X [_ [Y _]]]. rewrite (proj2 (Nat.eqb_neq w n1)), (proj2 (Nat.eqb_neq w v1)) by auto. cbn. apply NL.
    - rewrite !andb_false_r. cbn. apply NL. }
  assert (H2' : In v2 (vertices h1)) by (rewrite V1, in_app_iff; auto).
  assert (T2' : vty h1 v2 = ZSP) by (rewrite Ty1, (proj2 (Nat.eqb_neq v2 n1)); auto).
  destruct (unfuse_ok v2 h1 W1 NL1 H2' T2') as [h2 [n2 [A2 [U2 [P2 Q2]]]]]. assert (U2' := U2). destruct U2' as [W2 N2 V2 S2 I2 O2 Ty2 Ph2 _ E2].
  rewrite T2' in Ty2. rewrite V1, in_app_iff in N2. assert (N2' : ~ In n2 (vertices g)) by tauto. assert (D12n : n1 <> n2) by (intros ->; apply N2; simpl; auto).
  assert (D12 : v1 <> n2) by (intros ->; contradiction). assert (D22 : v2 <> n2) by (intros ->; contradiction).
  (* the boundaries of v2 are untouched by the first step *)
  assert (EV2 : forall c, edge_type h1 v2 c = edge_type g v2 c).
  { intros c. rewrite E1, pair_hit_false by (intros X; injection X; intros; congruence). unfold UnfuseProofs.moved.
    rewrite (proj2 (Nat.eqb_neq v2 n1)), (proj2 (Nat.eqb_neq v2 v1)) by auto. cbn [andb orb].
    assert (M : mem v2 (bnbrs g v1) = false) by (apply not_true_is_false; intros X; apply mem_spec in X; destruct (B1 _ X); tauto). rewrite M, !andb_false_r. auto. }
  assert (BE : forall c, mem c (bnbrs h1 v2) = mem c (bnbrs g v2)).
  { intros c. apply eq_true_iff_eq. rewrite !mem_spec, !in_bnbrs, EV2. rewrite Ty1. destruct (Nat.eqb_spec c n1); [subst; rewrite En1'; tauto|tauto]. }
  assert (B2 : forall w, In w (bnbrs g v2) -> w <> v1 /\ w <> v2 /\ w <> n1 /\ w <> n2).
  { intros w Hw. apply in_bnbrs in Hw. destruct Hw as [X Y]. destruct (edge_type g v2 w) eqn:E; [|congruence]. assert (In w (vertices g)) by (eapply edge_in_r; eauto).
    repeat split; auto; intros ->; congruence. }
  assert (En2 : forall w, edge_type h1 n2 w = None /\ edge_type h1 w n2 = None) by (intros w; apply edge_none_out; auto; rewrite V1, in_app_iff; auto).
  assert (E2' : forall a b, edge_type h2 a b = if pair_hit v2 n2 a b then Some SIMPLE else if pair_hit v1 n1 a b then Some SIMPLE else moved v2 n2 (bnbrs g v2) (moved v1 n1 (bnbrs g v1) (edge_type g)) a b).
  { intros a b. rewrite E2. destruct (pair_hit v2 n2 a b); auto. unfold UnfuseProofs.moved at 1 2. rewrite !BE, !E1.
    assert (Ma : mem a (bnbrs g v2) = true -> a <> v1 /\ a <> v2 /\ a <> n1 /\ a <> n2) by (intros X; apply mem_spec in X; auto).
    assert (Mb : mem b (bnbrs g v2) = true -> b <> v1 /\ b <> v2 /\ b <> n1 /\ b <> n2) by (intros X; apply mem_spec in X; auto).
    assert (PA : forall c, mem c (bnbrs g v2) = true -> pair_hit v1 n1 v2 c = false) by (intros c X; apply pair_hit_false; intros Y; injection Y; intros; congruence).
    destruct (mem b (bnbrs g v2)) eqn:Xb.
    - destruct (Mb eq_refl) as [b1 [b2 [b3 b4]]]. assert (PB : pair_hit v1 n1 a b = false) by (apply pair_hit_false; intros Y; injection Y; intros; congruence). rewrite PB.
      rewrite PA by auto. destruct (mem a (bnbrs g v2)) eqn:Xa; [rewrite PA by auto; auto|rewrite !andb_false_r; auto].
    - rewrite !andb_false_r. destruct (mem a (bnbrs g v2)) eqn:Xa; [|rewrite !andb_false_r; cbn [orb]; auto].
      destruct (Ma eq_refl) as [a1 [a2 [a3 a4]]]. assert (PB : pair_hit v1 n1 a b = false) by (apply pair_hit_false; intros Y; injection Y; intros; congruence). rewrite PB, PA by auto. auto. }
  rewrite A1. cbn [bind]. rewrite A2. cbn [bind].
  destruct (rem_e_ok v1 n1 SIMPLE h2 W2 D11) as [h3 [A3 [W3 [F3 [P3 [S3 E3]]]]]].
  { rewrite E2', pair_hit_false, pair_hit_st by (intros Y; injection Y; intros; congruence). auto. }
  rewrite A3. cbn [bind].
  destruct (rem_e_ok v2 n2 SIMPLE h3 W3 D22) as [h4 [A4 [W4 [F4 [P4 [S4 E4]]]]]].
  { rewrite E3, pair_hit_false, E2', pair_hit_st by (intros Y; injection Y; intros; congruence). auto. }
  rewrite A4. cbn [bind].
  assert (V4 : vertices h4 = vertices g ++ [n1; n2]) by (rewrite (proj1 F4), (proj1 F3), V2, V1, <- app_assoc; auto).
  assert (M11 : mem n1 (bnbrs g v1) = false) by (apply not_true_is_false; intros X; apply mem_spec in X; destruct (B1 _ X); tauto).
  assert (Mv1 : mem v1 (bnbrs g v1) = false) by (apply not_true_is_false; intros X; apply mem_spec in X; destruct (B1 _ X); tauto).
  assert (Mv2 : mem v2 (bnbrs g v1) = false) by (apply not_true_is_false; intros X; apply mem_spec in X; destruct (B1 _ X); tauto).
  assert (M12 : mem n2 (bnbrs g v1) = false) by (apply not_true_is_false; intros X; apply mem_spec in X; destruct (B1 _ X) as [_ [_ [_ Y]]]; contradiction).
  assert (M21 : mem n1 (bnbrs g v2) = false) by (apply not_true_is_false; intros X; apply mem_spec in X; destruct (B2 _ X); tauto).
  assert (M22 : mem n2 (bnbrs g v2) = false) by (apply not_true_is_false; intros X; apply mem_spec in X; destruct (B2 _ X); tauto).
  assert (Mw1 : mem v1 (bnbrs g v2) = false) by (apply not_true_is_false; intros X; apply mem_spec in X; destruct (B2 _ X); tauto).
  assert (Mw2 : mem v2 (bnbrs g v2) = false) by (apply not_true_is_false; intros X; apply mem_spec in X; destruct (B2 _ X); tauto).
  assert (En2g : forall w, edge_type g w n2 = None) by (intros w; exact (proj2 (edge_none_out g n2 w W N2'))).
  destruct (add_e_fresh v1 n2 HADAMARD h4 W4 D12) as [h5 [A5 [W5 [F5 [P5 [S5 E5]]]]]]; try (rewrite V4, in_app_iff; simpl; auto).
  { rewrite E4, pair_hit_false, E3, pair_hit_false, E2', !pair_hit_false by (intros Y; injection Y; intros; congruence). unfold UnfuseProofs.moved. rewrite ?M11, ?M12, ?M21, ?M22, ?Mv1, ?Mv2, ?Mw1, ?Mw2, ?andb_false_r. cbn. auto. }
  rewrite A5. cbn [bind].
  destruct (add_e_fresh v2 n1 HADAMARD h5 W5 D21) as [h6 [A6 [W6 [F6 [P6 [S6 E6]]]]]]; try (rewrite (proj1 F5), V4, in_app_iff; simpl; auto).
  { rewrite E5, pair_hit_false, E4, pair_hit_false, E3, pair_hit_false, E2', !pair_hit_false by (intros Y; injection Y; intros; congruence). unfold UnfuseProofs.moved. rewrite ?M11, ?M12, ?M21, ?M22, ?Mv1, ?Mv2, ?Mw1, ?Mw2, ?andb_false_r. cbn. auto. }
  exists h6, n1, n2. split; auto.
  assert (VT : forall w, vty h6 w = vty h2 w) by (intros w; rewrite (same_frame_vty _ _ w F6), (same_frame_vty _ _ w F5), (same_frame_vty _ _ w F4), (same_frame_vty _ _ w F3); auto).
  assert (PP : forall w, phase h6 w = phase h2 w) by (intros w; unfold phase; rewrite P6, P5, P4, P3; auto).
  assert (Vn : forall w, In w (vertices g) -> w <> n1 /\ w <> n2) by (intros w Hw; split; intros ->; contradiction).
  constructor; auto.
  - rewrite (proj1 F6), (proj1 F5). auto.
  - congruence.
  - destruct F6 as [_ [_ [-> _]]]. destruct F5 as [_ [_ [-> _]]]. destruct F4 as [_ [_ [-> _]]]. destruct F3 as [_ [_ [-> _]]]. congruence.
  - destruct F6 as [_ [_ [_ [-> _]]]]. destruct F5 as [_ [_ [_ [-> _]]]]. destruct F4 as [_ [_ [_ [-> _]]]]. destruct F3 as [_ [_ [_ [-> _]]]]. congruence.
  - rewrite VT, Ty2, Ty1, (proj2 (Nat.eqb_neq n1 n2)), Nat.eqb_refl by auto. auto.
  - rewrite VT, Ty2, Nat.eqb_refl. auto.
  - intros w Hw. destruct (Vn w Hw). rewrite VT, Ty2, Ty1, (proj2 (Nat.eqb_neq w n1)), (proj2 (Nat.eqb_neq w n2)) by auto. auto.
  - intros w Hw X Y. destruct (Vn w Hw). rewrite PP, Ph2, Ph1 by auto. auto.
  - rewrite PP, Ph2 by auto. auto.
  - rewrite PP. auto.
  - rewrite PP, Ph2 by auto. auto.
  - rewrite PP, Q2, Ph1 by auto. auto.
  - intros a b. rewrite E6. destruct (pair_hit v2 n1 a b); auto. rewrite E5. destruct (pair_hit v1 n2 a b); auto. rewrite E4. destruct (pair_hit v2 n2 a b) eqn:X4; auto. rewrite E3. destruct (pair_hit v1 n1 a b) eqn:X3; auto.
    rewrite E2', X4, X3. auto.
Qed.

Section Crossed.
  Variables (v1 v2 n1 n2 : nat) (g h : graph).
  Hypothesis G : gok g.
  Hypothesis X : crossed v1 v2 n1 n2 g h.
  Hypothesis I1 : In v1 (vertices g).
  Hypothesis I2 : In v2 (vertices g).
  Hypothesis D : v1 <> v2.
  Hypothesis T1 : vty g v1 = ZSP.
  Hypothesis T2 : vty g v2 = ZSP.
  Local Lemma cw : wfg g. Proof. apply G. Qed.
  Local Lemma cd : v1 <> n1 /\ v1 <> n2 /\ v2 <> n1 /\ v2 <> n2 /\ n1 <> n2.
  Proof. destruct X. repeat split; auto; intros E; subst; contradiction. Qed.
  Local Lemma cnone : forall w, edge_type g n1 w = None /\ edge_type g w n1 = None /\ edge_type g n2 w = None /\ edge_type g w n2 = None.
  Proof.
    intros w. destruct X. assert (W := cw). destruct (edge_none_out g n1 w W cr_n3) as [A B]. destruct (edge_none_out g n2 w W cr_n4) as [A' B']. auto.
  Qed.
  Local Lemma cb : forall u, u = v1 \/ u = v2 -> forall w, mem w (bnbrs g u) = true -> w <> v1 /\ w <> v2 /\ w <> n1 /\ w <> n2 /\ In w (vertices g) /\ vty g w = BOUNDARY.
  Proof.
    intros u Hu w Hw. apply mem_spec, in_bnbrs in Hw. destruct Hw as [E Y]. destruct (edge_type g u w) eqn:Q; [|congruence]. assert (In w (vertices g)) by (eapply edge_in_r; [apply cw|exact Q]).
    destruct X. repeat split; auto; intros ->; try contradiction; congruence.
  Qed.
  (** an edge between two vertices that are Z in the result *)
  Lemma crossed_gok : gok h.
  Proof.
    destruct cd as [D11 [D12 [D21 [D22 D33]]]]. assert (X' := X). destruct X'. assert (W := cw).
    assert (MV : forall a b, moved v2 n2 (bnbrs g v2) (moved v1 n1 (bnbrs g v1) (edge_type g)) a b = edge_type g a b \/ moved v2 n2 (bnbrs g v2) (moved v1 n1 (bnbrs g v1) (edge_type g)) a b = None \/
      (mem a (bnbrs g v1) || mem b (bnbrs g v1) || mem a (bnbrs g v2) || mem b (bnbrs g v2) = true /\ a <> b)).
    { intros a b. assert (C1' := cb v1 (or_introl eq_refl)). assert (C2' := cb v2 (or_intror eq_refl)).
      assert (HA1 := C1' a). assert (HB1 := C1' b). assert (HA2 := C2' a). assert (HB2 := C2' b). clear C1' C2'.
      unfold UnfuseProofs.moved.
      destruct (mem a (bnbrs g v1)) eqn:Ma1; [destruct (HA1 eq_refl) as [? [? [? [? _]]]]|]; (destruct (mem b (bnbrs g v1)) eqn:Mb1; [destruct (HB1 eq_refl) as [? [? [? [? _]]]]|]);
      (destruct (mem a (bnbrs g v2)) eqn:Ma2; [destruct (HA2 eq_refl) as [? [? [? [? _]]]]|]); (destruct (mem b (bnbrs g v2)) eqn:Mb2; [destruct (HB2 eq_refl) as [? [? [? [? _]]]]|]);
      rewrite ?andb_false_r, ?andb_true_r; cbn [andb orb]; auto;
      repeat (match goal with |- context[Nat.eqb ?p ?q] => destruct (Nat.eqb_spec p q); try congruence end; cbn [andb orb]); subst; auto; try (right; right; split; [reflexivity|congruence]). }
    split; auto. split.
    - intros a. rewrite cr_e0, !UnfuseProofs.pair_hit_self by auto. destruct (MV a a) as [->|[->|[_ Y]]]; [apply G|auto|congruence].
    - split.
      + intros w Hw. rewrite cr_v0, in_app_iff in Hw. destruct Hw as [Hw|[<-|[<-|[]]]]; auto. rewrite cr_t0 by auto. apply G; auto.
      + intros a b e Ee Za Zb. rewrite cr_e0 in Ee. destruct (pair_hit v2 n1 a b); [congruence|]. destruct (pair_hit v1 n2 a b); [congruence|].
        destruct (pair_hit v2 n2 a b); [discriminate|]. destruct (pair_hit v1 n1 a b); [discriminate|].
        destruct (MV a b) as [Q|[Q|[Y _]]]; rewrite ?Q in Ee.
        * assert (Ia : In a (vertices g)) by (eapply edge_in_l; eauto). assert (Ib : In b (vertices g)) by (eapply edge_in_r; eauto). rewrite !cr_t0 in * by auto. destruct G as [_ [_ [_ G3]]]. eapply G3; eauto.
        * discriminate.
        * exfalso. rewrite !orb_true_iff in Y. destruct Y as [[[Y|Y]|Y]|Y]; (apply cb in Y; [|auto]); destruct Y as [_ [_ [_ [_ [Iw Bw]]]]]; rewrite <- cr_t0 in Bw by auto; congruence.
  Qed.
  (** edges to the rest *)
  Local Lemma ce_core : forall a b, a <> v1 -> a <> v2 -> a <> n1 -> a <> n2 -> b <> v1 -> b <> v2 -> b <> n1 -> b <> n2 -> edge_type h a b = edge_type g a b.
  Proof.
    intros. rewrite (cr_e _ _ _ _ _ _ X), !pair_hit_false by (intros Y; injection Y; intros; congruence). unfold UnfuseProofs.moved.
    repeat (match goal with |- context[Nat.eqb ?p ?q] => rewrite (proj2 (Nat.eqb_neq p q)) by auto end). cbn [andb orb]. auto.
  Qed.
  Local Lemma mem_b : forall u w, u = v1 \/ u = v2 -> isB g w = false -> mem w (bnbrs g u) = false.
  Proof. intros u w Hu B. apply not_true_is_false. intros M. apply cb in M; auto. destruct M as [_ [_ [_ [_ [_ Y]]]]]. unfold isB in B. rewrite Y in B. discriminate. Qed.
  Local Lemma mem_b' : forall u w, u = v1 \/ u = v2 -> isB g w = true -> edge_type g u w <> None -> mem w (bnbrs g u) = true.
  Proof. intros u w Hu B E. apply mem_spec, in_bnbrs. split; auto. unfold isB in B. destruct (vtype_eqb_eq (vty g w) BOUNDARY); auto. Qed.
  Local Lemma ce_v : forall w, w <> v1 -> w <> v2 -> w <> n1 -> w <> n2 ->
    edge_type h v1 w = (if isB g w then None else edge_type g v1 w) /\ edge_type h v2 w = (if isB g w then None else edge_type g v2 w) /\
    edge_type h n1 w = (if isB g w then edge_type g v1 w else None) /\ edge_type h n2 w = (if isB g w then edge_type g v2 w else None).
  Proof.
    intros w H1 H2 H3 H4. destruct cd as [D11 [D12 [D21 [D22 D33]]]]. destruct (cnone w) as [Q1 [Q2 [Q3 Q4]]].
    assert (L1 : isB g v1 = false) by (unfold isB; rewrite T1; auto). assert (L2 : isB g v2 = false) by (unfold isB; rewrite T2; auto).
    assert (Mn : forall u, u = v1 \/ u = v2 -> mem n1 (bnbrs g u) = false /\ mem n2 (bnbrs g u) = false) by (intros u Hu; split; apply not_true_is_false; intros M; apply cb in M; tauto).
    assert (Mv : forall u, u = v1 \/ u = v2 -> mem v1 (bnbrs g u) = false /\ mem v2 (bnbrs g u) = false) by (intros u Hu; split; apply mem_b; auto).
    destruct (Mn v1 (or_introl eq_refl)) as [M1 M2]. destruct (Mn v2 (or_intror eq_refl)) as [M3 M4]. destruct (Mv v1 (or_introl eq_refl)) as [M5 M6]. destruct (Mv v2 (or_intror eq_refl)) as [M7 M8].
    rewrite !(cr_e _ _ _ _ _ _ X), !pair_hit_false by (intros Y; injection Y; intros; congruence). unfold UnfuseProofs.moved.
    rewrite ?M1, ?M2, ?M3, ?M4, ?M5, ?M6, ?M7, ?M8, ?andb_false_r, ?Nat.eqb_refl.
    repeat (match goal with |- context[Nat.eqb ?p ?q] => rewrite (proj2 (Nat.eqb_neq p q)) by auto end). cbn [andb orb].
    destruct (isB g w) eqn:B.
    - assert (E1 : mem w (bnbrs g v1) = false -> edge_type g v1 w = None) by (intros M; destruct (edge_type g v1 w) eqn:E; auto; rewrite (mem_b' v1 w) in M; auto; congruence).
      assert (E2 : mem w (bnbrs g v2) = false -> edge_type g v2 w = None) by (intros M; destruct (edge_type g v2 w) eqn:E; auto; rewrite (mem_b' v2 w) in M; auto; congruence).
      destruct (mem w (bnbrs g v1)), (mem w (bnbrs g v2)); cbn [andb orb]; rewrite ?Q1, ?Q3; auto; repeat split; auto; try (symmetry; auto).
    - rewrite (mem_b v1 w), (mem_b v2 w) by auto. cbn [andb orb]. rewrite Q1, Q3. auto.
  Qed.
  Local Lemma ce_in : edge_type h v1 v2 = edge_type g v1 v2 /\ edge_type h v1 n1 = None /\ edge_type h v1 n2 = Some HADAMARD /\ edge_type h v2 n1 = Some HADAMARD /\ edge_type h v2 n2 = None /\ edge_type h n1 n2 = None.
  Proof.
    destruct cd as [D11 [D12 [D21 [D22 D33]]]].
    assert (L1 : isB g v1 = false) by (unfold isB; rewrite T1; auto). assert (L2 : isB g v2 = false) by (unfold isB; rewrite T2; auto).
    assert (Mn : forall u, u = v1 \/ u = v2 -> mem n1 (bnbrs g u) = false /\ mem n2 (bnbrs g u) = false) by (intros u Hu; split; apply not_true_is_false; intros M; apply cb in M; tauto).
    assert (Mv : forall u, u = v1 \/ u = v2 -> mem v1 (bnbrs g u) = false /\ mem v2 (bnbrs g u) = false) by (intros u Hu; split; apply mem_b; auto).
    destruct (Mn v1 (or_introl eq_refl)) as [M1 M2]. destruct (Mn v2 (or_intror eq_refl)) as [M3 M4]. destruct (Mv v1 (or_introl eq_refl)) as [M5 M6]. destruct (Mv v2 (or_intror eq_refl)) as [M7 M8].
    assert (CE := cr_e _ _ _ _ _ _ X).
    split; [|split; [|split; [|split; [|split]]]]; rewrite CE.
    - rewrite !pair_hit_false by (intros Y; injection Y; intros; congruence). unfold UnfuseProofs.moved. rewrite ?M1, ?M2, ?M3, ?M4, ?M5, ?M6, ?M7, ?M8, ?andb_false_r. auto.
    - rewrite pair_hit_st. rewrite !pair_hit_false by (intros Y; injection Y; intros; congruence). auto.
    - rewrite pair_hit_st. destruct (pair_hit v2 n1 v1 n2); auto.
    - rewrite pair_hit_st. auto.
    - rewrite pair_hit_st. rewrite !pair_hit_false by (intros Y; injection Y; intros; congruence). auto.
    - rewrite !pair_hit_false by (intros Y; injection Y; intros; congruence). unfold UnfuseProofs.moved. rewrite ?M1, ?M2, ?M3, ?M4, ?M5, ?M6, ?M7, ?M8, ?andb_false_r. cbn [orb]. apply cnone.
  Qed.

  (** the part of a vertex that meets boundaries, and the rest *)
  Definition bpart (u : nat) (core : list nat) (y : assignment) (a : bool) : C := cprod (fun w => if isB g w then ew g u w a (y w) else C1) core.
  Definition zpart (u : nat) (core : list nat) (y : assignment) (a : bool) : C := cprod (fun w => if isB g w then C1 else ew g u w a (y w)) core.
  Lemma bz_split : forall u core y a, (cprod (fun w => ew g u w a (y w)) core = bpart u core y a * zpart u core y a)%C.
  Proof. intros. unfold bpart, zpart. rewrite <- cprod_mult. apply cprod_ext. intros w _. destruct (isB g w); ring. Qed.
  Lemma crossed_integ : forall core y, (forall w, In w core <-> In w (vertices g) /\ w <> v1 /\ w <> v2) -> edge_type g v1 v2 = Some HADAMARD ->
    integL ([v1; v2; n1; n2] ++ core) h y = (integL core g y * (ephase (phase g v1) (y n1) * bpart v1 core y (y n1)) * (ephase (phase g v2) (y n2) * bpart v2 core y (y n2))
      * zpart v1 core y (y v1) * zpart v2 core y (y v2) * (sq2p (-1) * sgn (y v1 && y v2)) * (sq2p (-1) * sgn (y v1 && y n2)) * (sq2p (-1) * sgn (y v2 && y n1)))%C.
  Proof.
    intros core y HC HE. destruct cd as [D11 [D12 [D21 [D22 D33]]]]. assert (X' := X). destruct X'.
    assert (Hc : forall w, In w core -> w <> v1 /\ w <> v2 /\ w <> n1 /\ w <> n2 /\ In w (vertices g)) by (intros w Hw; apply HC in Hw; destruct Hw as [A [B C']]; repeat split; auto; intros ->; contradiction).
    rewrite integL_app. assert (R : integL core h y = integL core g y).
    { apply integL_ext; auto.
      - intros w Hw. destruct (Hc w Hw) as [A [B [_ [_ E]]]]. split; auto.
      - intros a b Ha Hb. destruct (Hc a Ha) as [? [? [? [? _]]]]. destruct (Hc b Hb) as [? [? [? [? _]]]]. apply ce_core; auto. }
    rewrite R. cbn [cprod pprod].
    assert (Tv1 : vty h v1 = ZSP) by (rewrite cr_t0; auto). assert (Tv2 : vty h v2 = ZSP) by (rewrite cr_t0; auto).
    assert (Pw : pw h v1 (y v1) = C1 /\ pw h v2 (y v2) = C1 /\ pw h n1 (y n1) = ephase (phase g v1) (y n1) /\ pw h n2 (y n2) = ephase (phase g v2) (y n2)).
    { unfold pw, isB. rewrite Tv1, Tv2, cr_t3, cr_t4. cbn [vtype_eqb]. rewrite (cr_p1 _ _ _ _ _ _ X), (cr_p2 _ _ _ _ _ _ X), (cr_q1 _ _ _ _ _ _ X), (cr_q2 _ _ _ _ _ _ X), !eph_mod. rewrite !(eph_0 0%Qc) by auto. auto. }
    destruct Pw as [-> [-> [-> ->]]]. destruct ce_in as [Ea [Eb [Ec [Ed [Ef Eg]]]]].
    assert (EwH : forall a b, vty h a = ZSP -> vty h b = ZSP -> edge_type h a b = Some HADAMARD -> ew h a b (y a) (y b) = (sq2p (-1) * sgn (y a && y b))%C).
    { intros a b Ta Tb E. unfold ew, isX. rewrite Ta, Tb, E. reflexivity. }
    rewrite (EwH v1 v2), (EwH v1 n2), (EwH v2 n1) by (auto; congruence). rewrite (ew_none h v1 n1), (ew_none h v2 n2), (ew_none h n1 n2) by auto.
    assert (Z1 : cprod (fun w => ew h v1 w (y v1) (y w)) core = zpart v1 core y (y v1)).
    { apply cprod_ext. intros w Hw. destruct (Hc w Hw) as [? [? [? [? Iw]]]]. destruct (ce_v w) as [Q [_ [_ _]]]; auto. unfold ew, isX. rewrite Q, Tv1, T1, (cr_t0 w) by auto. destruct (isB g w); reflexivity. }
    assert (Z2 : cprod (fun w => ew h v2 w (y v2) (y w)) core = zpart v2 core y (y v2)).
    { apply cprod_ext. intros w Hw. destruct (Hc w Hw) as [? [? [? [? Iw]]]]. destruct (ce_v w) as [_ [Q [_ _]]]; auto. unfold ew, isX. rewrite Q, Tv2, T2, (cr_t0 w) by auto. destruct (isB g w); reflexivity. }
    assert (B1 : cprod (fun w => ew h n1 w (y n1) (y w)) core = bpart v1 core y (y n1)).
    { apply cprod_ext. intros w Hw. destruct (Hc w Hw) as [? [? [? [? Iw]]]]. destruct (ce_v w) as [_ [_ [Q _]]]; auto. unfold ew, isX. rewrite Q, cr_t3, T1, (cr_t0 w) by auto. destruct (isB g w); reflexivity. }
    assert (B2 : cprod (fun w => ew h n2 w (y n2) (y w)) core = bpart v2 core y (y n2)).
    { apply cprod_ext. intros w Hw. destruct (Hc w Hw) as [? [? [? [? Iw]]]]. destruct (ce_v w) as [_ [_ [_ Q]]]; auto. unfold ew, isX. rewrite Q, cr_t4, T2, (cr_t0 w) by auto. destruct (isB g w); reflexivity. }
    rewrite Z1, Z2, B1, B2. ring.
  Qed.
End Crossed.

(** ** The whole move *)
Lemma nodup_two : forall (l l' : list nat), NoDup l -> NoDup l' -> (forall x, In x l -> ~ In x l') -> NoDup (l ++ l').
Proof. induction l as [|a l IH]; simpl; intros l' N N' H; auto. inversion N; subst. constructor; [rewrite in_app_iff; intros [X|X]; [contradiction|exact (H a (or_introl eq_refl) X)]|apply IH; auto]. Qed.
Definition orders (so : list nat -> list nat) : Prop := forall l, Permutation (so l) l.
Lemma parity_nil_b : forall (x y : assignment) l, (forall u, In u l -> x u = y u) -> parity x l = parity y l.
Proof. intros x y l. induction l as [|a l IH]; intros H; [reflexivity|]. cbn. fold (parity x l) (parity y l). rewrite H, IH by (simpl; auto; intros; apply H; simpl; auto). auto. Qed.
Lemma zpart_val : forall g u core nb y a, NoDup core -> NoDup nb -> vty g u = ZSP -> (forall w, In w nb <-> In w core /\ edge_type g u w <> None /\ isB g w = false) ->
  (forall w, In w nb -> edge_type g u w = Some HADAMARD /\ vty g w = ZSP) ->
  zpart g u core y a = (sq2p (- Z.of_nat (length nb)) * sgn (a && parity y nb))%C.
Proof.
  intros g u core nb y a NC NN Tu HN HH. rewrite <- (cprod_h g u a y nb Tu HH). unfold zpart. rewrite (cprod_supp _ core nb); auto.
  - apply cprod_ext. intros w Hw. apply HN in Hw. destruct Hw as [_ [_ ->]]. reflexivity.
  - intros w Hw. apply HN in Hw. tauto.
  - intros w Hw Nw. destruct (isB g w) eqn:B; auto. apply ew_none. destruct (edge_type g u w) eqn:E; auto. exfalso. apply Nw. apply HN. split; auto. split; [congruence|auto].
Qed.
Lemma pivot_cong_ok : forall so v1 v2 g, orders so -> gok g -> edge_type g v1 v2 <> None -> vty g v1 = ZSP -> vty g v2 = ZSP ->
  exists g', pivot_cong so v1 v2 g = Ok g' /\ gok g' /\ same_upto g g'.
Proof.
  intros so v1 v2 g SO G HE T1 T2. assert (G' := G). destruct G' as [W [NL GL]].
  assert (D : v1 <> v2) by (intros <-; apply HE, NL).
  destruct (edge_type g v1 v2) as [e|] eqn:E12; [clear HE|congruence]. assert (e = HADAMARD) by (apply (proj2 GL v1 v2); auto). subst e.
  assert (I1 : In v1 (vertices g)) by (eapply edge_in_l; eauto). assert (I2 : In v2 (vertices g)) by (eapply edge_in_r; eauto).
  unfold pivot_cong.
  assert (ZB : forall v, forallb (zorb g) (neighbors g v) = true).
  { intros v. apply forallb_forall. intros n Hn. unfold zorb. destruct (proj1 GL n) as [->| ->]; auto. eapply neighbors_in; eauto. }
  rewrite !ZB. cbn [negb orb].
  set (vs1 := filter (fun v => vtype_eqb (vty g v) ZSP) (neighbors g v1)). set (vs2 := filter (fun v => vtype_eqb (vty g v) ZSP) (neighbors g v2)).
  set (sh := so (setinter vs1 vs2)). set (o1 := so (setminus vs1 (vs2 ++ [v2]))). set (o2 := so (setminus vs2 (vs1 ++ [v1]))).
  assert (Hs1 : forall w, In w vs1 <-> edge_type g v1 w <> None /\ vty g w = ZSP) by (intros w; unfold vs1; rewrite filter_In, neighbors_spec, vtype_eqb_eq; tauto).
  assert (Hs2 : forall w, In w vs2 <-> edge_type g v2 w <> None /\ vty g w = ZSP) by (intros w; unfold vs2; rewrite filter_In, neighbors_spec, vtype_eqb_eq; tauto).
  assert (N1 : NoDup vs1) by (apply NoDup_filter, neighbors_nd; auto). assert (N2 : NoDup vs2) by (apply NoDup_filter, neighbors_nd; auto).
  assert (Isd : forall l w, In w (so l) <-> In w l) by (intros l w; split; apply Permutation_in; [|symmetry]; apply SO).
  assert (Hsh : forall w, In w sh <-> In w vs1 /\ In w vs2) by (intros w; unfold sh; rewrite Isd, in_setinter; tauto).
  assert (Ho1 : forall w, In w o1 <-> In w vs1 /\ ~ In w vs2 /\ w <> v2) by (intros w; unfold o1; rewrite Isd, in_setminus, in_app_iff; simpl; intuition).
  assert (Ho2 : forall w, In w o2 <-> In w vs2 /\ ~ In w vs1 /\ w <> v1) by (intros w; unfold o2; rewrite Isd, in_setminus, in_app_iff; simpl; intuition).
  assert (Nd : NoDup sh /\ NoDup o1 /\ NoDup o2).
  { repeat split; (eapply Permutation_NoDup; [symmetry; apply SO|apply NoDup_filter; auto]). }
  destruct Nd as [Nsh [No1 No2]].
  assert (Lv1 : ~ In v1 vs1) by (rewrite Hs1; intros [X _]; apply X, NL). assert (Lv2 : ~ In v2 vs2) by (rewrite Hs2; intros [X _]; apply X, NL).
  assert (ZV : forall w, In w vs1 \/ In w vs2 -> In w (vertices g) /\ vty g w = ZSP).
  { intros w [H|H]; [apply Hs1 in H|apply Hs2 in H]; destruct H as [H Tw]; split; auto. { destruct (edge_type g v1 w) eqn:E; [eapply edge_in_r; eauto|congruence]. } destruct (edge_type g v2 w) eqn:E; [eapply edge_in_r; eauto|congruence]. }
  set (core := keep [v1; v2] g).
  assert (HC : forall w, In w core <-> In w (vertices g) /\ w <> v1 /\ w <> v2) by (intros w; unfold core; rewrite in_keep; simpl; intuition).
  assert (NC : NoDup core) by (apply NoDup_filter; apply W).
  assert (Zsh : forall w, In w sh -> In w core /\ vty g w = ZSP) by (intros w Hw; apply Hsh in Hw; destruct Hw as [A B]; destruct (ZV w (or_introl A)); split; auto; apply HC; split; auto; split; intros ->; contradiction).
  assert (Zo1 : forall w, In w o1 -> In w core /\ vty g w = ZSP) by (intros w Hw; apply Ho1 in Hw; destruct Hw as [A [B C']]; destruct (ZV w (or_introl A)); split; auto; apply HC; split; auto; split; auto; intros ->; contradiction).
  assert (Zo2 : forall w, In w o2 -> In w core /\ vty g w = ZSP) by (intros w Hw; apply Ho2 in Hw; destruct Hw as [A [B C']]; destruct (ZV w (or_intror A)); split; auto; apply HC; split; auto; split; auto; intros ->; contradiction).
  set (es := list_prod sh o1 ++ list_prod sh o2 ++ list_prod o1 o2).
  assert (Hes : forall s t, In (s, t) es -> s <> t /\ In s core /\ In t core /\ vty g s = ZSP /\ vty g t = ZSP).
  { intros s t Hst. unfold es in Hst. rewrite !in_app_iff, !in_prod_iff in Hst. destruct Hst as [[A B]|[[A B]|[A B]]].
    - destruct (Zsh _ A), (Zo1 _ B). split; auto. intros <-. apply Hsh in A. apply Ho1 in B. tauto.
    - destruct (Zsh _ A), (Zo2 _ B). split; auto. intros <-. apply Hsh in A. apply Ho2 in B. tauto.
    - destruct (Zo1 _ A), (Zo2 _ B). split; auto. intros <-. apply Ho1 in A. apply Ho2 in B. tauto. }
  destruct (toggle_all_ok es g W GL) as [g1 [k [A1 [K1 [W1 [GL1 [F1 [P1 [U1 X1]]]]]]]]].
  { intros s t Hst. destruct (Hes s t Hst) as [A [B [C' [D1 D2]]]]. apply HC in B, C'. tauto. }
  match goal with |- exists g', ?L = _ /\ _ => assert (RE : L = (let* g := toggle_all es g in let g := add_phases sh 1%Qc g in
    let* (g, n1) := unfuse v1 g in let* (g, n2) := unfuse v2 g in let* g := rem_e v1 n1 g in let* g := rem_e v2 n2 g in let* g := add_e v1 n2 HADAMARD g in add_e v2 n1 HADAMARD g)) end.
  { unfold es, toggle_subsets, toggle_all. rewrite !RuleLemmas.foldM_app. destruct (foldM _ (list_prod sh o1) g) as [q|]; cbn [bind]; auto. rewrite !RuleLemmas.foldM_app. destruct (foldM _ (list_prod sh o2) q) as [q'|]; cbn [bind]; auto. }
  rewrite RE, A1. cbn [bind]. clear RE.
  assert (VT1 : forall u, vty g1 u = vty g u) by (intros; apply same_frame_vty; auto). assert (V1 : vertices g1 = vertices g) by apply F1.
  assert (G1 : gok g1).
  { split; auto. split; auto. intros u. rewrite U1; [apply NL| |]; intros X; destruct (Hes _ _ X); congruence. }
  destruct (gok_add_phases sh 1%Qc g1 G1) as [G2 [F2 [E2 [P2 _]]]]. { intros n Hn. rewrite V1, VT1. destruct (Zsh n Hn) as [A B]. apply HC in A. tauto. }
  destruct (add_phases_spec core sh 1%Qc g1 W1 NC) as [_ [_ [_ [_ [_ X2]]]]].
  { intros n Hn. destruct (Zsh n Hn) as [A B]. split; auto. rewrite V1. unfold isB. rewrite VT1, B. apply HC in A. tauto. }
  set (g2 := add_phases sh 1%Qc g1) in *.
  assert (VT2 : forall u, vty g2 u = vty g u) by (intros; rewrite <- VT1; apply same_frame_vty; auto). assert (V2 : vertices g2 = vertices g) by (rewrite <- V1; apply F2).
  assert (EV : forall v w, v = v1 \/ v = v2 -> edge_type g2 v w = edge_type g v w).
  { intros v w Hv. rewrite E2. apply U1; intros X; destruct (Hes _ _ X) as [_ [A [B _]]]; apply HC in A, B; destruct Hv as [->| ->]; tauto. }
  assert (PV : forall v, v = v1 \/ v = v2 -> phase g2 v = phase g v).
  { intros v Hv. rewrite P2; [unfold phase; rewrite P1; auto|]. intros X. apply Zsh in X. destruct X as [X _]. apply HC in X. destruct Hv as [->| ->]; tauto. }
  destruct (cross_ok v1 v2 g2 G2) as [h [n1 [n2 [A X]]]]; try (rewrite V2); try (rewrite VT2); auto.
  exists h. split; [exact A|].
  assert (J1 : In v1 (vertices g2)) by (rewrite V2; auto). assert (J2 : In v2 (vertices g2)) by (rewrite V2; auto).
  assert (S1 : vty g2 v1 = ZSP) by (rewrite VT2; auto). assert (S2 : vty g2 v2 = ZSP) by (rewrite VT2; auto).
  assert (Gh : gok h) by (exact (crossed_gok v1 v2 n1 n2 g2 h G2 X J1 J2 D S1 S2)). split; auto.
  assert (Dn : v1 <> n1 /\ v1 <> n2 /\ v2 <> n1 /\ v2 <> n2 /\ n1 <> n2) by (exact (cd v1 v2 n1 n2 g2 h X J1 J2 D S1 S2)). destruct Dn as [D11 [D12 [D21 [D22 D33]]]].
  split; [|split].
  { rewrite (cr_i _ _ _ _ _ _ X). destruct F2 as [_ [_ [-> _]]]. apply F1. }
  { rewrite (cr_o _ _ _ _ _ _ X). destruct F2 as [_ [_ [_ [-> _]]]]. apply F1. }
  set (K0 := (k * (sq2p (-1) * sq2p (-1) * (C1 + C1)))%C). exists K0. split; [unfold K0; rewrite sq2p_half; replace (k * C1)%C with k by ring; auto|].
  assert (Vh : vertices h = vertices g ++ [n1; n2]) by (rewrite (cr_v _ _ _ _ _ _ X), V2; auto).
  assert (Nn1 : ~ In n1 (vertices g)) by (rewrite <- V2; apply (cr_n1 _ _ _ _ _ _ X)). assert (Nn2 : ~ In n2 (vertices g)) by (rewrite <- V2; apply (cr_n2 _ _ _ _ _ _ X)).
  assert (PG : Permutation (vertices g) ([v1; v2] ++ core)).
  { apply nodup_same_perm; [apply W| |].
    - constructor; [|constructor]; auto; simpl; rewrite ?HC; intuition.
    - intros w. simpl. rewrite HC. destruct (Nat.eq_dec v1 w); [subst; tauto|]. destruct (Nat.eq_dec v2 w); [subst; tauto|]. intuition congruence. }
  assert (PH : Permutation (vertices h) ([v1; v2; n1; n2] ++ core)).
  { rewrite Vh. eapply Permutation_trans; [apply Permutation_app_tail; exact PG|]. change ([v1; v2; n1; n2] ++ core) with ([v1; v2] ++ [n1; n2] ++ core). rewrite <- app_assoc. apply Permutation_app_head, Permutation_app_comm. }
  assert (Cn : ~ In v1 core /\ ~ In v2 core /\ ~ In n1 core /\ ~ In n2 core) by (rewrite !HC; tauto). destruct Cn as [Cv1 [Cv2 [Cn1 Cn2]]].
  set (l1 := o1 ++ sh). set (l2 := o2 ++ sh).
  assert (Nl1 : NoDup l1). { apply nodup_two; auto. intros w Hw Hw'. apply Ho1 in Hw. apply Hsh in Hw'. tauto. }
  assert (Nl2 : NoDup l2). { apply nodup_two; auto. intros w Hw Hw'. apply Ho2 in Hw. apply Hsh in Hw'. tauto. }
  assert (Hl1 : forall w, In w l1 <-> In w core /\ edge_type g v1 w <> None /\ isB g w = false).
  { intros w. unfold l1. rewrite in_app_iff. split.
    - intros [H|H]; [destruct (Zo1 w H) as [Q T]; apply Ho1 in H|destruct (Zsh w H) as [Q T]; apply Hsh in H]; destruct H as [H _]; apply Hs1 in H; unfold isB; rewrite T; tauto.
    - intros [H [E B]]. apply HC in H. assert (Tw : vty g w = ZSP) by (destruct (proj1 GL w) as [T|T]; [tauto|auto|unfold isB in B; rewrite T in B; discriminate]).
      assert (In w vs1) by (apply Hs1; auto). rewrite Ho1, Hsh. destruct (in_dec Nat.eq_dec w vs2); [auto|left; tauto]. }
  assert (Hl2 : forall w, In w l2 <-> In w core /\ edge_type g v2 w <> None /\ isB g w = false).
  { intros w. unfold l2. rewrite in_app_iff. split.
    - intros [H|H]; [destruct (Zo2 w H) as [Q T]; apply Ho2 in H; destruct H as [H _]|destruct (Zsh w H) as [Q T]; apply Hsh in H; destruct H as [_ H]]; apply Hs2 in H; unfold isB; rewrite T; tauto.
    - intros [H [E B]]. apply HC in H. assert (Tw : vty g w = ZSP) by (destruct (proj1 GL w) as [T|T]; [tauto|auto|unfold isB in B; rewrite T in B; discriminate]).
      assert (In w vs2) by (apply Hs2; auto). rewrite Ho2, Hsh. destruct (in_dec Nat.eq_dec w vs1); [auto|left; tauto]. }
  assert (HH : forall v w, v = v1 \/ v = v2 -> edge_type g v w <> None -> isB g w = false -> edge_type g v w = Some HADAMARD /\ vty g w = ZSP).
  { intros v w Hv E B. destruct (edge_type g v w) as [e|] eqn:Q; [|congruence]. assert (Iw : In w (vertices g)) by (eapply edge_in_r; eauto).
    assert (Tw : vty g w = ZSP) by (destruct (proj1 GL w) as [T|T]; [auto|auto|unfold isB in B; rewrite T in B; discriminate]). split; auto. f_equal. apply (proj2 GL v w); auto. destruct Hv as [->| ->]; auto. }
  assert (Z1 : forall y a, zpart g v1 core y a = (sq2p (- Z.of_nat (length l1)) * sgn (a && parity y l1))%C).
  { intros y a. apply zpart_val; auto. intros w Hw. apply Hl1 in Hw. apply HH; tauto. }
  assert (Z2 : forall y a, zpart g v2 core y a = (sq2p (- Z.of_nat (length l2)) * sgn (a && parity y l2))%C).
  { intros y a. apply zpart_val; auto. intros w Hw. apply Hl2 in Hw. apply HH; tauto. }
  assert (EW : forall v w a b, v = v1 \/ v = v2 -> ew g2 v w a b = ew g v w a b) by (intros v w a b Hv; unfold ew, isX; rewrite !VT2, EV by auto; auto).
  assert (BP : forall v y a, v = v1 \/ v = v2 -> bpart g2 v core y a = bpart g v core y a) by (intros v y a Hv; unfold bpart; apply cprod_ext; intros w _; unfold isB; rewrite VT2, EW by auto; auto).
  assert (ZP : forall v y a, v = v1 \/ v = v2 -> zpart g2 v core y a = zpart g v core y a) by (intros v y a Hv; unfold zpart; apply cprod_ext; intros w _; unfold isB; rewrite VT2, EW by auto; auto).
  assert (BU : forall v y u c a, ~ In u core -> bpart g v core (upd y u c) a = bpart g v core y a).
  { intros v y u c a Nu. unfold bpart. apply cprod_ext. intros w Hw. rewrite upd_other; auto. intros ->. contradiction. }
  apply (sem_regroup_k K0 g h [v1; v2] [v1; v2; n1; n2] core); auto; try (apply Gh).
  - intros w [<-|[<-|[]]]; unfold isB; [rewrite T1|rewrite T2]; auto.
  - intros w [<-|[<-|[<-|[<-|[]]]]]; unfold isB; [rewrite (cr_t _ _ _ _ _ _ X), VT2, T1|rewrite (cr_t _ _ _ _ _ _ X), VT2, T2|rewrite (cr_t1 _ _ _ _ _ _ X)|rewrite (cr_t2 _ _ _ _ _ _ X)]; auto.
  - intros w Hw. unfold isB. apply HC in Hw. rewrite (cr_t _ _ _ _ _ _ X) by (rewrite V2; tauto). rewrite VT2. auto.
  - intros x. set (Q1 := parity x l1). set (Q2 := parity x l2). set (s1 := sq2p (- Z.of_nat (length l1))). set (s2 := sq2p (- Z.of_nat (length l2))). set (R0 := integL core g x).
    set (a1 := fun c => (ephase (phase g v1) c * bpart g v1 core x c)%C). set (a2 := fun c => (ephase (phase g v2) c * bpart g v2 core x c)%C).
    assert (Pl : forall v, In v l1 \/ In v l2 -> In v core) by (intros v [Hv|Hv]; [apply Hl1 in Hv|apply Hl2 in Hv]; tauto).
    assert (IG : forall c d, integL ([v1; v2] ++ core) g (upd (upd x v1 c) v2 d) = (R0 * a1 c * a2 d * (s1 * sgn (c && Q1)) * (s2 * sgn (d && Q2)) * (sq2p (-1) * sgn (c && d)))%C).
    { intros c d. rewrite integL_app, !integL_indep by auto. cbn [cprod pprod]. rewrite upd_same, (upd_other _ v2 d v1), upd_same by auto.
      set (y := upd (upd x v1 c) v2 d). rewrite (bz_split g v1 core y c), (bz_split g v2 core y d). rewrite Z1, Z2. unfold y. rewrite !BU, !parity_upd by (auto; intros Q; apply Cv1 || apply Cv2; apply Pl; auto).
      unfold pw, isB. rewrite T1, T2. cbn [vtype_eqb]. unfold ew at 1, isX. rewrite E12, T1, T2. cbn [vtype_eqb xorb tog option_map wt]. fold Q1 Q2 s1 s2 R0. unfold a1, a2. ring. }
    assert (IH : forall a b c d, integL ([v1; v2; n1; n2] ++ core) h (upd (upd (upd (upd x v1 a) v2 b) n1 c) n2 d) =
      (k * sgn (Q1 && Q2) * R0 * a1 c * a2 d * (s1 * sgn (a && Q1)) * (s2 * sgn (b && Q2)) * (sq2p (-1) * sgn (a && b)) * (sq2p (-1) * sgn (a && d)) * (sq2p (-1) * sgn (b && c)))%C).
    { intros a b c d. set (y := upd (upd (upd (upd x v1 a) v2 b) n1 c) n2 d).
      rewrite (crossed_integ v1 v2 n1 n2 g2 h G2 X J1 J2 D S1 S2 core y); [|intros w; rewrite V2; apply HC|rewrite EV by auto; auto].
      rewrite !PV, !BP, !ZP by auto. rewrite Z1, Z2, X2, X1; [|auto|intros s t Hst; destruct (Hes s t Hst); tauto].
      assert (Y1 : y v1 = a) by (unfold y; rewrite !upd_other by auto; apply upd_same). assert (Y2 : y v2 = b) by (unfold y; rewrite !(upd_other _ _ _ v2) by auto; apply upd_same).
      assert (Y3 : y n1 = c) by (unfold y; rewrite !(upd_other _ _ _ n1) by auto; apply upd_same). assert (Y4 : y n2 = d) by apply upd_same. rewrite Y1, Y2, Y3, Y4.
      assert (YP : forall l, (forall v, In v l -> In v core) -> parity y l = parity x l) by (intros l Hl; unfold y; rewrite !parity_upd by (intros Q; apply Hl in Q; contradiction); auto).
      unfold es. rewrite !cprod_app, !cprod_sgn_prod, cprod_ephase1. rewrite !YP by (intros v Hv; first [apply Zsh in Hv|apply Zo1 in Hv|apply Zo2 in Hv|apply Pl; auto]; tauto).
      replace (integL core g y) with R0 by (unfold y; rewrite !integL_indep by auto; reflexivity). replace (bpart g v1 core y c) with (bpart g v1 core x c) by (unfold y; rewrite !BU by auto; reflexivity).
      replace (bpart g v2 core y d) with (bpart g v2 core x d) by (unfold y; rewrite !BU by auto; reflexivity).
      fold Q1 Q2 s1 s2. assert (QF : (sgn (parity x sh && parity x o1) * (sgn (parity x sh && parity x o2) * sgn (parity x o1 && parity x o2)) * sgn (parity x sh) = sgn (Q1 && Q2))%C).
      { unfold Q1, Q2, l1, l2. rewrite !parity_app. destruct (parity x sh), (parity x o1), (parity x o2); cbn; unfold sgn; ring. }
      rewrite <- QF. unfold a1, a2. ring. }
    cbn [sumv]. rewrite !IH, !IG. unfold K0. clearbody a1 a2 s1 s2 R0. generalize (a1 true) (a1 false) (a2 true) (a2 false) (sq2p (-1)). intros u1 u2 u3 u4 hh.
    destruct Q1, Q2; cbn [andb]; unfold sgn; ring.
Qed.
