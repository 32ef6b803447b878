(** to_graph_like: the loops after fusion. *)
From Coq Require Import Reals ZArith QArith Qcanon List Bool Arith Lia Permutation FunctionalExtensionality.
From Verif Require Import LinModel LinProofs CNum Base ScalarModel ScalarProofs GraphModel GraphSem SumLemmas GraphProofs GraphOps RulesModel RuleLemmas
  SpiderProofs IsoProofs IdProofs LcompProofs PivotProofs PivotMatch GrowProofs StoreProofs InvProofs BfixProofs TotalProofs GrowTotal
  GateModel CircSpec GateProofs GateMask AmpProofs CircGraphModel CircGraphProofs CircGraphFacts VerifyProofs GraphAlgModel GraphAlgProofs GraphAlgFacts
  ComposeProofs ApplyProofs ExtractModel ExtractSem ExtractMap ExtractClean ExtractCz ExtractFront ExtractNbrs SimpModel TidyModel TidySub TidyProofs.
Import ListNotations.
Open Scope nat_scope.

Record kept (g h : graph) : Prop := mkkept {
  kp_z : zinv h; kp_sem : forall y, sem h y = sem g y; kp_if : iface g h; kp_gl : glike h;
  kp_old : forall u, In u (vertices g) -> In u (vertices h) /\ vty h u = vty g u;
  kp_nob : forall c, In c (vertices h) -> vty h c = BOUNDARY -> In c (vertices g) }.
Lemma kept_refl : forall g, zinv g -> glike g -> kept g g.
Proof. intros. constructor; auto. split; auto. Qed.
Lemma kept_trans : forall a b c, kept a b -> kept b c -> kept a c.
Proof.
  intros a b c [A1 A2 A3 A4 A5 A6] [B1 B2 B3 B4 B5 B6]. constructor; auto.
  - intros. rewrite B2. auto.
  - eapply iface_trans; eauto.
  - intros u Hu. destruct (A5 u Hu) as [X Y]. destruct (B5 u X) as [X' Y']. split; congruence.
  - intros u Hu Tu. apply A6; auto. destruct (B5 u (B6 u Hu Tu)) as [_ X]. congruence.
Qed.

(** every boundary is joined to a Z spider *)
Definition near (g : graph) (b : nat) : Prop := exists u, vty g u = ZSP /\ edge_type g b u <> None.
Definition allnear (g : graph) : Prop := forall b, In b (vertices g) -> vty g b = BOUNDARY -> near g b.
(** a spider is joined to at most one boundary *)
Definition one_b (g : graph) (z : nat) : Prop := forall b c, vty g b = BOUNDARY -> vty g c = BOUNDARY ->
  edge_type g z b <> None -> edge_type g z c <> None -> b = c.
Record dstep (v b : nat) (g h : graph) : Prop := mkdstep {
  ds_k : kept g h;
  ds_new : forall z c, In z (vertices h) -> ~ In z (vertices g) -> vty h c = BOUNDARY -> edge_type h z c <> None -> c = b;
  ds_old : forall z c, In z (vertices g) -> In c (vertices g) -> vty g z = ZSP -> vty g c = BOUNDARY ->
    edge_type h z c = if Nat.eqb z v && Nat.eqb c b then None else edge_type g z c;
  ds_near : allnear g -> allnear h }.

Lemma dummy_step_ok : forall v b g, zinv g -> glike g -> vty g v = ZSP -> vty g b = BOUNDARY -> edge_type g v b <> None ->
  exists h, dummy_step v g b = Ok h /\ dstep v b g h.
Proof.
  intros v b g Z [G1 G2] Tv Tb E. assert (W := zx_wf _ (zi_zx _ Z)).
  destruct (edge_type g v b) as [e|] eqn:Ee; [|congruence]. clear E.
  assert (Iv : In v (vertices g)) by (eapply edge_in_l; eauto).
  assert (Ib : In b (vertices g)) by (eapply edge_in_r; eauto).
  assert (Dvb : v <> b) by congruence.
  destruct e.
  - set (z1 := gvindex g). destruct (dummy_simple_ok g v b Z Tv Tb Ee z1 (S z1) eq_refl eq_refl) as [h [A [Zh [Sh [Ih [Wh Rh Vh Th Ph Eh Nh]]]]]].
    exists h. split; auto.
    assert (F1 : ~ In z1 (vertices g)) by (apply fresh_not_in; auto).
    assert (F2 : ~ In (S z1) (vertices g)) by (intros X; apply (wf_fresh g W) in X; unfold z1 in X; lia).
    set (z2 := S z1) in *. assert (N12 : z1 <> z2) by (unfold z2; lia). clearbody z2. 
    assert (Nv1 : v <> z1) by (intros ->; auto). assert (Nv2 : v <> z2) by (intros ->; contradiction).
    assert (Nn1 : b <> z1) by (intros ->; auto). assert (Nn2 : b <> z2) by (intros ->; contradiction).
    assert (Told : forall u, In u (vertices g) -> vty h u = vty g u).
    { intros u Hu. rewrite Th. unfold tz1. destruct (Nat.eqb_spec u z2); [subst; contradiction|]. destruct (Nat.eqb_spec u z1); [subst; contradiction|auto]. }
    assert (Tz1 : vty h z1 = ZSP). { rewrite Th. unfold tz1. rewrite (Nat.eqb_refl z1). destruct (Nat.eqb z1 z2); auto. }
    assert (Tz2 : vty h z2 = ZSP) by (rewrite Th, Nat.eqb_refl; auto).
    assert (VI : forall u, In u (vertices h) <-> In u (vertices g) \/ u = z1 \/ u = z2).
    { intros u. rewrite Vh, in_app_iff. simpl. intuition. }
    assert (Q1 : forall u, edge_type g z1 u = None /\ edge_type g u z1 = None) by (intros; apply edge_none_out; auto).
    assert (Q2 : forall u, edge_type g z2 u = None /\ edge_type g u z2 = None) by (intros; apply edge_none_out; auto).
    clearbody z1. constructor.
    + constructor; auto.
      * split.
        -- intros u Hu. apply VI in Hu. destruct Hu as [Hu|[->| ->]]; auto. rewrite Told by auto. auto.
        -- intros u x e. rewrite Eh. unfold out2. intros X Tu Tx.
           assert (Bb : vty h b = BOUNDARY) by (rewrite Told; auto).
           revert X. phits; intros X; try congruence.
           assert (Iu : In u (vertices g)) by (eapply edge_in_l; eauto). assert (Ix : In x (vertices g)) by (eapply edge_in_r; eauto).
           rewrite Told in Tu, Tx by auto. apply (G2 u x); auto.
      * intros u Hu. split; [apply VI; auto|auto].
      * intros c Hc Tc. apply VI in Hc. destruct Hc as [Hc|[->| ->]]; auto; congruence.
    + intros z c Hz Nz Tc. apply VI in Hz. rewrite Eh. unfold out2. destruct Hz as [Hz|[->| ->]]; [contradiction| |].
      * rewrite (proj1 (Q1 c)). phits; phdone.
      * rewrite (proj1 (Q2 c)). phits; phdone. rewrite Told in Tc by auto. congruence.
    + intros z c Hz Hc Tz Tc. rewrite Eh. unfold out2. assert (z <> z1) by congruence. assert (z <> z2) by congruence.
      assert (c <> z1) by congruence. assert (c <> z2) by congruence.
      destruct (Nat.eqb_spec z v), (Nat.eqb_spec c b); cbn [andb]; subst; phits; phdone.
    + intros AN c Hc Tc. apply VI in Hc. destruct Hc as [Hc|[->| ->]]; try congruence. rewrite Told in Tc by auto.
      destruct (Nat.eq_dec c b) as [->|Dc].
      * exists z1. split; auto. rewrite Eh. unfold out2. phits; phdone.
      * destruct (AN c Hc Tc) as [u [Tu Eu]]. exists u. assert (In u (vertices g)) by (apply neighbors_spec in Eu; eapply neighbors_in; eauto).
        rewrite Told by auto. split; auto. rewrite Eh. unfold out2. assert (c <> z1) by congruence. assert (c <> z2) by congruence. phits; phdone.
  - set (z1 := gvindex g). destruct (dummy_had_ok g v b Z Tv Tb Ee z1 eq_refl) as [h [A [Zh [Sh [Ih [Wh Rh Vh Th Ph Eh Nh]]]]]].
    exists h. split; auto.
    assert (F1 : ~ In z1 (vertices g)) by (apply fresh_not_in; auto).
    assert (Nv1 : v <> z1) by (intros ->; auto). assert (Nn1 : b <> z1) by (intros ->; auto).
    assert (Told : forall u, In u (vertices g) -> vty h u = vty g u).
    { intros u Hu. rewrite Th. unfold tz1. destruct (Nat.eqb_spec u z1); [subst; contradiction|auto]. }
    assert (Tz1 : vty h z1 = ZSP). { rewrite Th. unfold tz1. rewrite (Nat.eqb_refl z1). auto. }
    assert (VI : forall u, In u (vertices h) <-> In u (vertices g) \/ u = z1).
    { intros u. rewrite Vh, in_app_iff. simpl. intuition. }
    assert (Q1 : forall u, edge_type g z1 u = None /\ edge_type g u z1 = None) by (intros; apply edge_none_out; auto).
    clearbody z1. constructor.
    + constructor; auto.
      * split.
        -- intros u Hu. apply VI in Hu. destruct Hu as [Hu| ->]; auto. rewrite Told by auto. auto.
        -- intros u x e. rewrite Eh. unfold out1. intros X Tu Tx.
           assert (Bb : vty h b = BOUNDARY) by (rewrite Told; auto).
           revert X. phits; intros X; try congruence.
           assert (Iu : In u (vertices g)) by (eapply edge_in_l; eauto). assert (Ix : In x (vertices g)) by (eapply edge_in_r; eauto).
           rewrite Told in Tu, Tx by auto. apply (G2 u x); auto.
      * intros u Hu. split; [apply VI; auto|auto].
      * intros c Hc Tc. apply VI in Hc. destruct Hc as [Hc| ->]; auto; congruence.
    + intros z c Hz Nz Tc. apply VI in Hz. rewrite Eh. unfold out1. destruct Hz as [Hz| ->]; [contradiction|].
      rewrite (proj1 (Q1 c)). phits; phdone. rewrite Told in Tc by auto. congruence.
    + intros z c Hz Hc Tz Tc. rewrite Eh. unfold out1. assert (z <> z1) by congruence.
      assert (c <> z1) by congruence.
      destruct (Nat.eqb_spec z v), (Nat.eqb_spec c b); cbn [andb]; subst; phits; phdone.
    + intros AN c Hc Tc. apply VI in Hc. destruct Hc as [Hc| ->]; try congruence. rewrite Told in Tc by auto.
      destruct (Nat.eq_dec c b) as [->|Dc].
      * exists z1. split; auto. rewrite Eh. unfold out1. phits; phdone.
      * destruct (AN c Hc Tc) as [u [Tu Eu]]. exists u. assert (In u (vertices g)) by (apply neighbors_spec in Eu; eapply neighbors_in; eauto).
        rewrite Told by auto. split; auto. rewrite Eh. unfold out1. assert (c <> z1) by congruence. phits; phdone.
Qed.

(** ** The inner loop over the boundaries of one spider *)
Record dsteps (v : nat) (bs : list nat) (g h : graph) : Prop := mkdsteps {
  dd_k : kept g h;
  dd_new : forall z, In z (vertices h) -> ~ In z (vertices g) -> one_b h z;
  dd_old : forall z c, In z (vertices g) -> In c (vertices g) -> vty g z = ZSP -> vty g c = BOUNDARY ->
    edge_type h z c = if Nat.eqb z v && mem c bs then None else edge_type g z c;
  dd_near : allnear g -> allnear h }.
Lemma dummy_fold : forall v bs g, zinv g -> glike g -> vty g v = ZSP -> NoDup bs -> (forall b, In b bs -> vty g b = BOUNDARY /\ edge_type g v b <> None) ->
  exists h, foldM (dummy_step v) bs g = Ok h /\ dsteps v bs g h.
Proof.
  induction bs as [|b bs IH]; intros g Z G Tv ND HB.
  - exists g. split; auto. constructor; auto using kept_refl; try tauto.
    intros z c _ _ _ _. cbn [mem existsb]. rewrite andb_false_r. auto.
  - assert (W := zx_wf _ (zi_zx _ Z)).
    inversion ND as [|? ? Nb ND']; subst. destruct (HB b (or_introl eq_refl)) as [Tb Eb].
    destruct (dummy_step_ok v b g Z G Tv Tb Eb) as [h [A [K New Old Near]]]. cbn [foldM]. rewrite A. cbn [bind].
    assert (Iv : In v (vertices g)) by (apply (edge_type_in_l g v b); auto).
    assert (IB : forall c, In c (b :: bs) -> In c (vertices g)).
    { intros c Hc. apply (edge_type_in_l g c v). rewrite wf_sym by auto. apply HB. auto. }
    destruct (IH h) as [k [A' [K' New' Old' Near']]]; auto.
    + apply K.
    + apply K.
    + rewrite (proj2 (kp_old _ _ K v Iv)). auto.
    + intros c Hc. assert (Ic := IB c (or_intror Hc)). rewrite (proj2 (kp_old _ _ K c Ic)). destruct (HB c (or_intror Hc)) as [X Y]. split; auto.
      rewrite Old by auto. rewrite Nat.eqb_refl. destruct (Nat.eqb_spec c b); [subst; contradiction|]. auto.
    + exists k. split; auto. constructor.
      * eapply kept_trans; eauto.
      * intros z Hz Nz. destruct (in_dec Nat.eq_dec z (vertices h)) as [Iz|Iz]; [|apply New'; auto].
        intros c d Tc Td Ec Ed.
        assert (X : forall c, vty k c = BOUNDARY -> edge_type k z c <> None -> c = b).
        { clear c d Tc Td Ec Ed. intros c Tc Ec.
          assert (Ick : In c (vertices k)) by (destruct (edge_type k z c) eqn:Y; [|congruence]; eapply edge_in_r; [apply (zx_wf _ (zi_zx _ (kp_z _ _ K')))|eauto]).
          assert (Ich := kp_nob _ _ K' c Ick Tc).
          assert (Tch : vty h c = BOUNDARY) by (rewrite <- (proj2 (kp_old _ _ K' c Ich)); auto).
          assert (Icg := kp_nob _ _ K c Ich Tch).
          assert (Tzh : vty h z = ZSP). { destruct (proj1 (kp_gl _ _ K) z Iz) as [|Y]; auto. exfalso. apply Nz. apply (kp_nob _ _ K); auto. }
          assert (Tcg : vty g c = BOUNDARY) by (rewrite <- (proj2 (kp_old _ _ K c Icg)); auto).
          rewrite Old' in Ec by auto. apply (New z c); auto. destruct (_ && _); [congruence|auto]. }
        rewrite (X c), (X d); auto.
      * intros z c Iz Ic Tz Tc. destruct (kp_old _ _ K z Iz) as [Y1 Y2]. destruct (kp_old _ _ K c Ic) as [Y3 Y4].
        rewrite Old' by congruence. rewrite Old by auto. change (mem c (b :: bs)) with (Nat.eqb c b || mem c bs).
        destruct (Nat.eqb z v), (Nat.eqb c b), (mem c bs); auto.
      * auto.
Qed.

(** ** The loop over the spiders *)
Lemma nbrs_bdry : forall g v c, In c (filter (fun n => vtype_eqb (vty g n) BOUNDARY) (neighbors g v)) <-> edge_type g v c <> None /\ vty g c = BOUNDARY.
Proof. intros. rewrite filter_In, neighbors_spec, vtype_eqb_eq. tauto. Qed.
Lemma spider_tidy_ok : forall g v, zinv g -> glike g -> allnear g -> In v (vertices g) ->
  exists h, spider_tidy g v = Ok h /\ kept g h /\ allnear h /\ (vty g v = ZSP -> one_b h v) /\
    (forall z, In z (vertices h) -> vty h z = ZSP -> (In z (vertices g) -> one_b g z) -> one_b h z).
Proof.
  intros g v Z G AN Iv. assert (W := zx_wf _ (zi_zx _ Z)). unfold spider_tidy. rewrite vtype_r_ok by auto. cbn [bind].
  destruct (vtype_eqb (vty g v) ZSP) eqn:T; cbn [negb].
  2:{ exists g. split; auto. split; [apply kept_refl; auto|]. split; auto. split; [intros X; rewrite X in T; discriminate|]. auto. }
  apply vtype_eqb_eq in T. rewrite neighbors_r_ok by auto. cbn [bind].
  set (bs := filter (fun n => vtype_eqb (vty g n) BOUNDARY) (neighbors g v)).
  assert (NB : NoDup bs) by (apply NoDup_filter, neighbors_nd; auto).
  assert (HB : forall c, In c bs <-> edge_type g v c <> None /\ vty g c = BOUNDARY) by (intros; apply nbrs_bdry).
  destruct (Nat.leb_spec (length bs) 1) as [L|L].
  { exists g. split; auto. split; [apply kept_refl; auto|]. split; auto. split; auto.
    intros _ b c Tb Tc Eb Ec. assert (X : In b bs) by (apply HB; auto). assert (Y : In c bs) by (apply HB; auto).
    destruct bs as [|x [|y l]]; simpl in *; try lia; try tauto; intuition congruence.  }
  destruct (exists_last (l := bs)) as [l [last Eb]]; [destruct bs; [simpl in L; lia|discriminate]|]. rewrite Eb, removelast_last.
  rewrite Eb in NB. destruct (nodup_app_inv _ _ _ NB) as [NL [_ ND]].
  destruct (dummy_fold v l g Z G T NL) as [h [A [K New Old Near]]].
  { intros b Hb. assert (X : In b bs) by (rewrite Eb; apply in_app_iff; auto). apply HB in X. tauto. }
  exists h. split; auto. split; auto. split; auto.
  assert (Wh := zx_wf _ (zi_zx _ (kp_z _ _ K))).
  assert (Bold : forall z c, vty h c = BOUNDARY -> edge_type h z c <> None -> In c (vertices g) /\ vty g c = BOUNDARY).
  { intros z c Tc Ec. assert (Ic : In c (vertices h)) by (destruct (edge_type h z c) eqn:Y; [|congruence]; eapply edge_in_r; eauto).
    assert (Icg := kp_nob _ _ K c Ic Tc). split; auto. rewrite <- (proj2 (kp_old _ _ K c Icg)). auto. }
  split.
  - intros _ b c Tb Tc Xb Xc. destruct (Bold v b Tb Xb) as [Ib Tgb]. destruct (Bold v c Tc Xc) as [Ic Tgc].
    assert (Q : forall d, In d (vertices g) -> vty g d = BOUNDARY -> edge_type h v d <> None -> d = last).
    { intros d Id Td Xd. rewrite Old in Xd by auto. rewrite Nat.eqb_refl in Xd. cbn [andb] in Xd. destruct (mem d l) eqn:M; [congruence|].
      assert (X : In d bs) by (apply HB; auto). rewrite Eb in X. apply in_app_iff in X. apply mem_false in M. simpl in X. intuition. }
    rewrite (Q b), (Q c); auto.
  - intros z Iz Tz H. destruct (in_dec Nat.eq_dec z (vertices g)) as [Izg|Izg]; [|apply New; auto].
    intros b c Tb Tc Xb Xc. destruct (Bold z b Tb Xb) as [Ib Tgb]. destruct (Bold z c Tc Xc) as [Ic Tgc].
    assert (Tgz : vty g z = ZSP) by (rewrite <- (proj2 (kp_old _ _ K z Izg)); auto).
    rewrite Old in Xb, Xc by auto. apply (H Izg b c); auto; [destruct (_ && mem b l)|destruct (_ && mem c l)]; auto; congruence.
Qed.
Lemma spiders_tidy_ok : forall vs g, zinv g -> glike g -> allnear g -> (forall v, In v vs -> In v (vertices g)) ->
  exists h, foldM spider_tidy vs g = Ok h /\ kept g h /\ allnear h /\
    (forall z, In z (vertices h) -> vty h z = ZSP -> (In z (vertices g) -> In z vs \/ one_b g z) -> one_b h z).
Proof.
  induction vs as [|v vs IH]; intros g Z G AN HV.
  - exists g. split; auto. split; [apply kept_refl; auto|]. split; auto. intros z Iz Tz H. destruct (H Iz) as [[]|]; auto.
  - destruct (spider_tidy_ok g v Z G AN) as [h [A [K [ANh [O1 O2]]]]]; [apply HV; simpl; auto|]. cbn [foldM]. rewrite A. cbn [bind].
    destruct (IH h) as [k [A' [K' [ANk O3]]]]; auto; try apply K.
    { intros u Hu. apply (kp_old _ _ K). apply HV. simpl; auto. }
    exists k. split; auto. split; [eapply kept_trans; eauto|]. split; auto.
    intros z Iz Tz H. apply O3; auto. intros Izh.
    assert (Tzh : vty h z = ZSP) by (rewrite <- (proj2 (kp_old _ _ K' z Izh)); auto).
    destruct (in_dec Nat.eq_dec z (vertices g)) as [Izg|Izg].
    + destruct (H Izg) as [[->|X]|X]; auto. right. apply O1. rewrite <- (proj2 (kp_old _ _ K z Izg)). auto.
    + right. apply O2; auto. tauto.
Qed.

(** ** The loop over the boundaries *)
(** no Hadamard wire joins two boundaries *)
Definition bb_plain (g : graph) : Prop := forall b c, vty g b = BOUNDARY -> vty g c = BOUNDARY -> edge_type g b c <> Some HADAMARD.
Lemma bdeg_nbrs : forall g b u, wfg g -> (forall w, edge_type g b w <> None <-> w = u) -> neighbors g b = [u].
Proof.
  intros g b u W H. assert (N := neighbors_nd g b W). assert (X : forall w, In w (neighbors g b) <-> w = u) by (intros; rewrite neighbors_spec; auto).
  destruct (neighbors g b) as [|a [|c l]].
  - exfalso. apply (X u). auto.
  - f_equal. apply X. simpl; auto.
  - exfalso. inversion N; subst. apply H2. left. transitivity u; [|symmetry]; apply X; simpl; auto.
Qed.
Lemma bnd_step_ok : forall g v, zinv g -> glike g -> bb_plain g -> In v (vertices g) -> vty g v = BOUNDARY ->
  exists h, bnd_step g v = Ok h /\ kept g h /\ bb_plain h /\ near h v /\ (forall b, In b (vertices g) -> vty g b = BOUNDARY -> near g b -> near h b).
Proof.
  intros g v Z [G1 G2] BB Iv Tv. assert (W := zx_wf _ (zi_zx _ Z)). unfold bnd_step.
  destruct (zi_deg _ Z v Iv Tv) as [n Hn]. rewrite neighbors_r_ok by auto. cbn [bind]. rewrite (bdeg_nbrs g v n W Hn). cbn [existsb].
  assert (En : edge_type g v n <> None) by (apply Hn; auto).
  destruct (edge_type g v n) as [e|] eqn:E; [|congruence]. assert (In_ : In n (vertices g)) by (eapply edge_in_r; eauto).
  destruct (vtype_eqb (vty g n) ZSP) eqn:T; cbn [orb].
  { exists g. split; auto. split; [apply kept_refl; auto; split; auto|]. split; auto. split; auto. apply vtype_eqb_eq in T. exists n. split; auto. congruence. }
  assert (Tn : vty g n = BOUNDARY). { destruct (G1 n In_) as [X|X]; auto. rewrite X in T. discriminate. } clear T.
  assert (D : v <> n) by (intros ->; rewrite (zx_noloop _ (zi_zx _ Z)) in E; discriminate).
  destruct e; [|exfalso; apply (BB v n); auto]. cbn [foldM].
  set (z1 := gvindex g). destruct (bnd_nbr_ok g v n Z D Tv Tn E z1 (S z1) (S (S z1)) eq_refl eq_refl eq_refl) as [h [A [Zh [Sh [Ih [Wh Rh Vh Th Ph Eh Nh]]]]]].
  rewrite A. cbn [bind]. exists h. split; auto.
  assert (F1 : ~ In z1 (vertices g)) by (apply fresh_not_in; auto).
  assert (F2 : ~ In (S z1) (vertices g)) by (intros X; apply (wf_fresh g W) in X; unfold z1 in X; lia).
  assert (F3 : ~ In (S (S z1)) (vertices g)) by (intros X; apply (wf_fresh g W) in X; unfold z1 in X; lia).
  set (z3 := S (S z1)) in *. set (z2 := S z1) in *.
  assert (N12 : z1 <> z2) by (unfold z2; lia). assert (N13 : z1 <> z3) by (unfold z3; lia). assert (N23 : z2 <> z3) by (unfold z3, z2; lia).
  clearbody z3 z2.
  assert (Told : forall u, In u (vertices g) -> vty h u = vty g u).
  { intros u Hu. rewrite Th. unfold tz1. destruct (Nat.eqb_spec u z3); [subst; contradiction|].
    destruct (Nat.eqb_spec u z2); [subst; contradiction|]. destruct (Nat.eqb_spec u z1); [subst; contradiction|auto]. }
  assert (Tz1 : vty h z1 = ZSP). { rewrite Th. unfold tz1. rewrite (Nat.eqb_refl z1). destruct (Nat.eqb z1 z2), (Nat.eqb z1 z3); auto. }
  assert (Tz2 : vty h z2 = ZSP). { rewrite Th. rewrite (Nat.eqb_refl z2). destruct (Nat.eqb z2 z3); auto. }
  assert (Tz3 : vty h z3 = ZSP) by (rewrite Th, Nat.eqb_refl; auto).
  assert (VI : forall u, In u (vertices h) <-> In u (vertices g) \/ u = z1 \/ u = z2 \/ u = z3).
  { intros u. rewrite Vh, in_app_iff. simpl. intuition. }
  clearbody z1. assert (Tvh := Told v Iv). assert (Tnh := Told n In_).
  assert (Eold : forall u x e, edge_type g u x = Some e -> In u (vertices g) /\ In x (vertices g)) by (intros u x e X; split; [eapply edge_in_l; eauto|eapply edge_in_r; eauto]).
  split; [|split; [|split]].
  - constructor; auto.
    + split.
      * intros u Hu. apply VI in Hu. destruct Hu as [Hu|[->|[->| ->]]]; auto. rewrite Told by auto. auto.
      * intros u x e. rewrite Eh. intros X Tu Tx. revert X. phits; intros X; try congruence.
        destruct (Eold _ _ _ X) as [Iu Ix]. rewrite Told in Tu, Tx by auto. apply (G2 u x); auto.
    + intros u Hu. split; [apply VI; auto|auto].
    + intros c Hc Tc. apply VI in Hc. destruct Hc as [Hc|[->|[->| ->]]]; auto; congruence.
  - intros b c Tb Tc. rewrite Eh. phits; try congruence.
    intros X. destruct (Eold _ _ _ X) as [Iu Ix]. rewrite Told in Tb, Tc by auto. apply (BB b c); auto.
  - exists z1. split; auto. rewrite Eh. phits; phdone.
  - intros b Ib Tb [u [Tu Eu]]. assert (Iu : In u (vertices g)). { destruct (edge_type g b u) eqn:X; [|congruence]. eapply Eold; eauto. }
    exists u. rewrite Told by auto. split; auto. rewrite Eh. assert (b <> z1) by congruence. phits; phdone.
Qed.
Lemma bnds_ok : forall bs g, zinv g -> glike g -> bb_plain g -> (forall b, In b bs -> In b (vertices g) /\ vty g b = BOUNDARY) ->
  exists h, foldM bnd_step bs g = Ok h /\ kept g h /\ forall b, In b (vertices g) -> vty g b = BOUNDARY -> In b bs \/ near g b -> near h b.
Proof.
  induction bs as [|v bs IH]; intros g Z G BB HB.
  - exists g. split; auto. split; [apply kept_refl; auto|]. intros b _ _ [[]|]; auto.
  - destruct (HB v (or_introl eq_refl)) as [Iv Tv]. destruct (bnd_step_ok g v Z G BB Iv Tv) as [h [A [K [BBh [Nv N]]]]]. cbn [foldM]. rewrite A. cbn [bind].
    destruct (IH h) as [k [A' [K' N']]]; auto; try apply K.
    { intros b Hb. destruct (HB b (or_intror Hb)) as [X Y]. destruct (kp_old _ _ K b X). split; congruence. }
    exists k. split; auto. split; [eapply kept_trans; eauto|]. intros b Ib Tb H. destruct (kp_old _ _ K b Ib) as [X Y].
    apply N'; auto; [congruence|]. destruct H as [[<-|H]|H]; auto.
Qed.
