(** Circuit extraction: neighbors_of_frontier. *)
From Coq Require Import Reals ZArith QArith Qcanon List Bool Arith Lia Permutation FunctionalExtensionality.
From Verif Require Import LinModel LinProofs CNum Base ScalarModel ScalarProofs GraphModel GraphSem SumLemmas GraphProofs GraphOps RulesModel RuleLemmas
  SpiderProofs IsoProofs IdProofs LcompProofs PivotProofs PivotMatch GrowProofs StoreProofs InvProofs BfixProofs TotalProofs GrowTotal
  GateModel CircSpec GateProofs GateMask AmpProofs CircGraphModel CircGraphProofs CircGraphFacts VerifyProofs GraphAlgModel GraphAlgProofs GraphAlgFacts
  ComposeProofs ApplyProofs ExtractModel ExtractSem ExtractMap ExtractClean ExtractCz ExtractFront.
Import ListNotations.
Open Scope C_scope.

Lemma fresh_edge : forall s t et g g', wfg g -> s <> t -> edge_type g s t = None -> add_edge s t et g = Ok g' ->
  wfg g' /\ same_frame g g' /\ gphase g' = gphase g /\ gscalar g' = gscalar g /\ In s (vertices g) /\ In t (vertices g) /\
  forall u v, edge_type g' u v = if pair_hit s t u v then Some et else edge_type g u v.
Proof.
  intros s t et g g' W D EN E. unfold add_edge in E. destruct (dget s (gadj g)) as [ds|] eqn:Es; [|discriminate].
  rewrite (edge_none_dget g s t ds Es) in EN. rewrite EN in E.
  destruct (set_edge_type_spec _ _ _ _ _ (wfg_nedges _ _ W) E) as [A [B [P [S [I1 [I2 ET]]]]]]. auto 10.
Qed.
Lemma toggle_join : forall e, join_e HADAMARD (toggle_edge e) = e.
Proof. intros []; auto. Qed.
Lemma split_input : forall g q r v b et g1 w g2 g3 g4, gok g -> vty g v = ZSP -> In b (vertices g) -> vty g b = BOUNDARY -> edge_type g v b = Some et ->
  add_vertex ZSP q r (Some 0%Qc) g = (g1, w) -> remove_edge v b g1 = Ok g2 -> add_edge v w HADAMARD g2 = Ok g3 -> add_edge w b (toggle_edge et) g3 = Ok g4 ->
  gok g4 /\ (forall y, sem g y = sem g4 y) /\ vertices g4 = vertices g ++ [w] /\ ~ In w (vertices g) /\
  (forall u, vty g4 u = if Nat.eqb u w then ZSP else vty g u) /\ (forall u, phase g4 u = if Nat.eqb u w then 0%Qc else phase g u) /\
  ginputs g4 = ginputs g /\ goutputs g4 = goutputs g /\
  (forall u x, edge_type g4 u x = if pair_hit w b u x then Some (toggle_edge et) else if pair_hit v w u x then Some HADAMARD else if pair_hit v b u x then None else edge_type g u x).
Proof.
  intros g q r v b et g1 w g2 g3 g4 G Tv Ib Tb E A1 A2 A3 A4. assert (W := gk_wf g G).
  destruct (add_vertex_spec _ _ _ _ _ _ _ W A1) as [Ew [W1 [V1 [ET1 [_ [T1 [P1 [I1 [O1 S1]]]]]]]]].
  destruct (add_vertex_rows _ _ _ _ _ _ _ W (zi_rows _ (gk_z _ G)) A1) as [_ [R1 _]].
  assert (Fw : ~ In w (vertices g)) by (rewrite Ew; apply fresh_not_in; auto). clear Ew.
  assert (Iv : In v (vertices g)) by (eapply edge_in_l; eauto).
  assert (Dvb : v <> b) by (intros ->; congruence). assert (Dvw : v <> w) by (intros ->; contradiction). assert (Dwb : w <> b) by (intros ->; contradiction).
  assert (Nw : forall u, edge_type g w u = None) by (intros u; destruct (edge_type g w u) eqn:X; auto; exfalso; apply Fw; eapply edge_in_l; eauto).
  assert (Nw' : forall u, edge_type g u w = None) by (intros u; rewrite wf_sym; auto).
  destruct (remove_edge_spec _ _ _ _ W1 Dvb A2) as [W2 [F2 [P2 [S2 [_ [_ [_ ET2]]]]]]].
  assert (E2 : edge_type g2 v w = None) by (rewrite ET2, ET1, Nw'; destruct (pair_hit _ _ _ _); auto).
  destruct (fresh_edge _ _ _ _ _ W2 Dvw E2 A3) as [W3 [F3 [P3 [S3 [_ [_ ET3]]]]]].
  assert (E3 : edge_type g3 w b = None).
  { rewrite ET3, ET2, ET1, Nw. rewrite pair_hit_false; [destruct (pair_hit _ _ _ _); auto| |]; intros X; injection X; intros; congruence. }
  destruct (fresh_edge _ _ _ _ _ W3 Dwb E3 A4) as [W4 [F4 [P4 [S4 [_ [_ ET4]]]]]].
  assert (F : same_frame g1 g4) by (eapply same_frame_trans; [exact F2|]; eapply same_frame_trans; eauto).
  assert (ET : forall u x, edge_type g4 u x = if pair_hit w b u x then Some (toggle_edge et) else if pair_hit v w u x then Some HADAMARD else if pair_hit v b u x then None else edge_type g u x).
  { intros u x. rewrite ET4, ET3, ET2, ET1. auto. }
  assert (T : forall u, vty g4 u = if Nat.eqb u w then ZSP else vty g u) by (intros; rewrite (same_frame_vty g1 g4) by auto; apply T1).
  assert (P : forall u, phase g4 u = if Nat.eqb u w then 0%Qc else phase g u).
  { intros u. unfold phase. rewrite P4, P3, P2. fold (phase g1 u). rewrite P1, qmod2_0. auto. }
  assert (V : vertices g4 = vertices g ++ [w]) by (rewrite (proj1 F); auto).
  assert (I4 : ginputs g4 = ginputs g) by (destruct F as [_ [_ [-> _]]]; auto).
  assert (O4 : goutputs g4 = goutputs g) by (destruct F as [_ [_ [_ [-> _]]]]; auto).
  assert (VI : forall u, In u (vertices g4) <-> In u (vertices g) \/ u = w).
  { intros u. rewrite V, in_app_iff. simpl. intuition. }
  assert (NL : noloop g4).
  { intros u. rewrite ET. rewrite !pair_hit_false; try (intros X; injection X; intros; congruence). apply (gk_nl g G). }
  assert (Told : forall u, In u (vertices g) -> vty g4 u = vty g u) by (intros u Hu; rewrite T; destruct (Nat.eqb_spec u w); auto; subst; contradiction).
  assert (GK : gok g4).
  { destruct G as [[Z D BP R IO] N [G1 G2]]. destruct Z as [W0 NL0 ZX ZP ZI]. constructor.
    - constructor.
      + constructor; auto.
        * intros u Hu. apply VI in Hu. destruct Hu as [Hu| ->]; [rewrite Told by auto; apply ZX; auto|]. rewrite T, Nat.eqb_refl. discriminate.
        * intros u Hu. rewrite P. destruct (Nat.eqb_spec u w); [split; simpl; unfold Qle, Qlt; simpl; lia|]. apply ZP. apply VI in Hu. tauto.
        * intros u Hu. rewrite I4, O4 in Hu. destruct (ZI u Hu) as [X Y]. split; [apply VI; auto|]. unfold isB. rewrite Told by auto. auto.
      + intros c Hc Tc. apply VI in Hc. destruct Hc as [Hc| ->]; [|rewrite T, Nat.eqb_refl in Tc; discriminate]. rewrite Told in Tc by auto.
        destruct (D c Hc Tc) as [u Hu]. destruct (Nat.eq_dec c b) as [->|X].
        * exists w. assert (u = v) by (symmetry; apply Hu; rewrite wf_sym by auto; congruence). subst u.
          intros x. rewrite ET. unfold pair_hit. rewrite !Nat.eqb_refl, (proj2 (Nat.eqb_neq b w)), (proj2 (Nat.eqb_neq b v)) by auto. simpl.
          destruct (Nat.eqb_spec x w); [split; [auto|discriminate]|]. destruct (Nat.eqb_spec x v); [split; [congruence|intros; subst; contradiction]|].
          split; [intros Y; apply Hu in Y; contradiction|intros; contradiction].
        * exists u. intros x. rewrite ET, !pair_hit_false; auto; intros Y; injection Y; intros; subst; congruence.
      + intros c Hc Tc. apply VI in Hc. destruct Hc as [Hc| ->]; [|rewrite T, Nat.eqb_refl in Tc; discriminate]. rewrite Told in Tc by auto.
        rewrite P. destruct (Nat.eqb_spec c w); auto.
      + intros u Hu. destruct F as [FV [_ [_ [_ [_ [_ FR]]]]]]. rewrite FR. apply R1. rewrite <- FV. auto.
      + intros c Hc Tc. rewrite I4, O4. apply VI in Hc. destruct Hc as [Hc| ->]; [|rewrite T, Nat.eqb_refl in Tc; discriminate]. rewrite Told in Tc by auto. apply IO; auto.
    - unfold io_ok. rewrite I4, O4. auto.
    - split.
      + intros u Hu. apply VI in Hu. destruct Hu as [Hu| ->]; [rewrite Told by auto; auto|]. rewrite T, Nat.eqb_refl. auto.
      + intros u x e. rewrite ET, !T. destruct (pair_hit w b u x) eqn:H1.
        * intros _ X Y. exfalso. unfold pair_hit in H1. apply orb_true_iff in H1. destruct H1 as [H1|H1]; apply andb_true_iff in H1; destruct H1 as [Ha Hb]; apply Nat.eqb_eq in Ha, Hb; subst.
          -- rewrite (proj2 (Nat.eqb_neq b w)) in Y by auto. congruence.
          -- rewrite (proj2 (Nat.eqb_neq b w)) in X by auto. congruence.
        * destruct (pair_hit v w u x); [congruence|]. destruct (pair_hit v b u x); [discriminate|].
          intros X. destruct (Nat.eqb_spec u w); [subst; rewrite Nw in X; discriminate|]. destruct (Nat.eqb_spec x w); [subst; rewrite Nw' in X; discriminate|]. apply G2; auto. }
  split; auto. split; [|split; auto; split; auto; split; auto; split; auto; split; auto].
  intros y. apply (sub_wire g g4 w v b HADAMARD (toggle_edge et) y W W4 NL); auto.
  - apply VI. auto.
  - rewrite V, filter_app. simpl. unfold mem. simpl. rewrite Nat.eqb_refl. simpl. rewrite app_nil_r. symmetry. apply filter_true. intros u Hu.
    destruct (Nat.eqb_spec u w); auto. subst; contradiction.
  - congruence.
  - intros u Hu. rewrite T, P. destruct (Nat.eqb_spec u w); auto. subst; contradiction.
  - rewrite T, Nat.eqb_refl. auto.
  - rewrite P, Nat.eqb_refl. auto.
  - unfold isX. rewrite Told, Tv by auto. auto.
  - unfold isX. rewrite Told, Tb by auto. auto.
  - rewrite ET. rewrite (pair_hit_false w b w v), (pair_hit_sym v w), pair_hit_st; auto; intros X; injection X; intros; congruence.
  - rewrite ET, pair_hit_st. auto.
  - intros u X Y. rewrite ET, Nw, !pair_hit_false; auto; intros Z; injection Z; intros; congruence.
  - rewrite ET. rewrite (pair_hit_false w b v b), (pair_hit_false v w v b), pair_hit_st; auto; intros X; injection X; intros; congruence.
  - rewrite toggle_join. auto.
  - intros u x Hu Hx X. rewrite ET, X, !pair_hit_false; auto; intros Z; injection Z; intros; subst; contradiction.
Qed.

Lemma lremove_perm : forall v l r, lremove v l = Ok r -> Permutation l (v :: r).
Proof.
  induction l as [|u l IH]; intros r H; simpl in H; [discriminate|]. destruct (Nat.eqb_spec u v) as [->|].
  - injection H as <-. apply Permutation_refl.
  - inv_bind H. injection H as <-. rewrite (IH a E). apply perm_swap.
Qed.
Lemma nadd_in : forall d ns x, In x (fold_left nadd d ns) <-> In x ns \/ In x d.
Proof.
  induction d as [|a d IH]; intros ns x; simpl; [tauto|]. rewrite IH. unfold nadd. destruct (nmem a ns) eqn:B.
  - apply nmem_spec in B. intuition; subst; auto.
  - rewrite in_app_iff. simpl. tauto.
Qed.
Lemma nadd_nd : forall d ns, NoDup ns -> NoDup (fold_left nadd d ns).
Proof.
  induction d as [|a d IH]; intros ns N; simpl; auto. apply IH. unfold nadd. destruct (nmem a ns) eqn:B; auto.
  apply RuleLemmas.nodup_app; auto; [repeat constructor; simpl; tauto|]. intros x Hx [<-|[]]. apply nmem_spec in Hx. congruence.
Qed.
(** after cleaning: the frontier spiders only see their output and other spiders *)
Record fclean (g : graph) (qm : dict nat) (fr : list nat) : Prop := mkfclean {
  fc_f : frok g qm fr; fc_c : forall v, In v fr -> clean g qm v; fc_e : forall v w, In v fr -> In w fr -> edge_type g v w = None }.
Record nfinv (g0 : graph) (qm gad : dict nat) (l : list nat) (g : graph) (fr nset : list nat) : Prop := mknfinv {
  ni_g : gok g; ni_x : ext g0 g []; ni_m : inv_map g; ni_f : fclean g qm fr; ni_gad : gadok g gad; ni_n : NoDup nset;
  ni_nz : forall w, In w nset -> vty g w = ZSP /\ In w (vertices g) /\ ~ In w fr;
  ni_a : forall w, In w nset -> exists v, In v fr /\ edge_type g v w <> None;
  ni_l : incl l fr; ni_nd : NoDup l;
  ni_d : forall v u, In v fr -> ~ In v l -> edge_type g v u <> None -> In u nset \/ In u (goutputs g) }.
Lemma frok_sub : forall g qm fr fr', NoDup fr' -> incl fr' fr -> frok g qm fr -> frok g qm fr'.
Proof. intros g qm fr fr' N I [_ H]. split; auto. Qed.
Lemma fr_in : forall g qm fr v, frok g qm fr -> In v fr -> In v (vertices g) /\ vty g v = ZSP.
Proof. intros g qm fr v F H. destruct (fk_v _ _ _ F v H) as [q [_ [_ [T E]]]]. split; auto. destruct (edge_type g v (outv g q)) eqn:X; [eapply edge_in_l; eauto|congruence]. Qed.

Lemma nf_one_ok : forall g0 qm gad v l g fr nset g' fr' nset', nfinv g0 qm gad (v :: l) g fr nset -> nf_one true gad (g, fr, nset) v = Ok (g', fr', nset') ->
  nfinv g0 qm gad l g' fr' nset'.
Proof.
  intros g0 qm gad v l g fr nset g' fr' nset' I H. unfold nf_one in H. inv_bind H. apply neighbors_r_inv in E. destruct E as [Iv ->].
  destruct I as [G X M [F CC FF] GD N NZ NA L ND D]. assert (W := gk_wf g G). apply NoDup_cons_iff in ND. destruct ND as [ND1 ND2].
  assert (Hv : In v fr) by (apply L; simpl; auto). assert (Ll : incl l fr) by (intros u Hu; apply L; simpl; auto).
  destruct (fr_in g qm fr v F Hv) as [_ Tv].
  set (d := filter (fun w => negb (nmem w (goutputs g))) (neighbors g v)) in *.
  assert (Hd : forall u, In u d <-> edge_type g v u <> None /\ ~ In u (goutputs g)).
  { intros u. unfold d. rewrite filter_In, neighbors_spec, negb_true_iff, <- not_true_iff_false, nmem_spec. tauto. }
  assert (Kd : forall u, In u d -> ~ In u (ginputs g) -> vty g u = ZSP /\ In u (vertices g) /\ ~ In u fr).
  { intros u Hu Ni. apply Hd in Hu. destruct Hu as [Eu No]. assert (Iu : In u (vertices g)) by (destruct (edge_type g v u) eqn:Y; [eapply edge_r; eauto|congruence]).
    split; [|split; auto; intros Y; apply Eu; apply FF; auto]. destruct (proj1 (gk_gl _ G) u Iu) as [T|T]; auto. exfalso. destruct (zi_io _ (gk_z _ G) u Iu T); auto. }
  destruct (filter (fun w => nmem w (ginputs g)) d) as [|b l0] eqn:FI.
  - injection H as <- <- <-. assert (Ni : forall u, In u d -> ~ In u (ginputs g)).
    { intros u Hu Y. assert (Z : In u (filter (fun w => nmem w (ginputs g)) d)) by (apply filter_In; split; auto; apply nmem_spec; auto). rewrite FI in Z. destruct Z. }
    constructor; auto; [constructor; auto|apply nadd_nd; auto| | |].
    + intros w Hw. apply nadd_in in Hw. destruct Hw as [Hw|Hw]; auto.
    + intros w Hw. apply nadd_in in Hw. destruct Hw as [Hw|Hw]; auto. exists v. split; auto. apply Hd. auto.
    + intros u w Hu Nu E. rewrite nadd_in. destruct (Nat.eq_dec u v) as [->|Y].
      * destruct (in_dec Nat.eq_dec w (goutputs g)); auto. left. right. apply Hd. auto.
      * destruct (D u w Hu) as [Z|Z]; auto. intros [Z|Z]; auto.
  - assert (B : In b d /\ In b (ginputs g)).
    { assert (Z : In b (filter (fun w => nmem w (ginputs g)) d)) by (rewrite FI; simpl; auto). apply filter_In in Z. rewrite nmem_spec in Z. auto. }
    destruct B as [Bd Bi]. destruct (gk_ins g G b Bi) as [Ib Tb]. apply Hd in Bd as Bd'. destruct Bd' as [Eb Nb].
    destruct (Nat.eqb (length d) 1) eqn:LD.
    + inv_bind H. injection H as <- <- <-. apply lremove_perm in E. assert (N' : NoDup (v :: a)) by (eapply Permutation_NoDup; [exact E|apply F]).
      apply NoDup_cons_iff in N'. destruct N' as [N1 N2].
      assert (Hin : forall u, In u a -> In u fr) by (intros u Hu; eapply Permutation_in; [symmetry; exact E|simpl; auto]).
      constructor; auto.
      * constructor; auto. apply (frok_sub g qm fr); auto.
      * intros w Hw. destruct (NZ w Hw) as [Y1 [Y2 Y3]]. split; auto.
      * intros w Hw. destruct (NZ w Hw) as [Y1 _]. destruct (NA w Hw) as [u [Hu Eu]]. exists u. split; auto.
        assert (Z : In u (v :: a)) by (eapply Permutation_in; [exact E|auto]). destruct Z as [<-|]; auto. exfalso. apply Nat.eqb_eq in LD.
        assert (Z : In w d) by (apply Hd; split; auto; intros Z; apply (gk_outs g G) in Z; destruct Z; congruence).
        destruct d as [|d0 [|d1 d2]]; try discriminate LD. destruct Z as [->|[]]. destruct Bd as [->|[]]. congruence.
      * intros u Hu. assert (In u (v :: a)) by (eapply Permutation_in; [exact E|auto]). destruct H as [<-|]; auto. contradiction.
      * intros u w Hu Nu Ew. apply (D u w); auto. intros [<-|Y]; auto.
    + inv_bind H. inv_bind H. destruct (add_vertex ZSP a (a0 + 1)%Qc (Some 0%Qc) g) as [g1 w] eqn:A1. destruct (dmem w gad) eqn:Gw; [discriminate|]. cbn [andb] in H.
      inv_bind H. apply of_opt_some in E1. inv_bind H. inv_bind H. inv_bind H. inv_bind H. injection H as <- <- <-.
      rename a1 into et. destruct (add_vertex_spec _ _ _ _ _ _ _ W A1) as [_ [_ [_ [ET1 _]]]]. rewrite ET1 in E1.
      destruct (split_input g _ _ v b et g1 w a2 a3 a4 G Tv Ib Tb E1 A1 E2 E3 E4) as [G4 [S4 [V4 [Fw [T4 [P4 [I4 [O4 ET4]]]]]]]].
      assert (Told : forall u, In u (vertices g) -> vty a4 u = vty g u /\ phase a4 u = phase g u).
      { intros u Hu. rewrite T4, P4. destruct (Nat.eqb_spec u w); auto. subst; contradiction. }
      assert (Iff : forall u, In u fr -> In u (vertices g)) by (intros u Hu; apply (fr_in g qm fr u F Hu)).
      assert (X4 : ext g0 a4 []).
      { change (@nil gate) with (@nil gate ++ []). eapply ext_trans; [exact X|]. apply ext_sem; auto. exists C1. split; [apply C1_neq_C0|]. intros y. rewrite S4. ring. }
      assert (Dvb : v <> b) by (intros ->; congruence). assert (Dwb : w <> b) by (intros ->; contradiction). assert (Dwv : w <> v) by (intros ->; contradiction).
      assert (Eold : forall u x, u <> w -> x <> w -> (u, x) <> (v, b) -> (u, x) <> (b, v) -> edge_type a4 u x = edge_type g u x).
      { intros u x Y1 Y2 Y3 Y4. rewrite ET4, !pair_hit_false; auto; intros Z; injection Z; intros; congruence. }
      assert (NWv : forall u, In u (vertices g) -> u <> w) by (intros u Hu ->; contradiction).
      assert (OV : forall q, outv a4 q = outv g q) by (intros; unfold outv; rewrite O4; auto).
      assert (On : nout a4 = nout g) by (unfold nout; rewrite O4; auto).
      assert (EO : forall u q, In u (vertices g) -> (q < nout g)%nat -> edge_type a4 u (outv g q) = edge_type g u (outv g q)).
      { intros u q Hu Lq. assert (Io : In (outv g q) (goutputs g)) by (apply nth_In; auto). apply Eold; auto.
        - apply NWv. apply (gk_outs g G); auto.
        - intros Z. injection Z as -> Z. rewrite <- Z in Nb. contradiction.
        - intros Z. injection Z as -> Z. rewrite Z in Io. apply (gk_outs g G) in Io. destruct Io; congruence. }
      apply lremove_perm in E5. assert (Nd : NoDup d) by (apply NoDup_filter, neighbors_nd; auto).
      assert (N' : NoDup (b :: a5)) by (eapply Permutation_NoDup; [exact E5|auto]). apply NoDup_cons_iff in N'. destruct N' as [N1 N2].
      assert (Hin : forall u, In u a5 <-> In u d /\ u <> b).
      { intros u. split.
        - intros Hu. split; [eapply Permutation_in; [symmetry; exact E5|simpl; auto]|intros ->; contradiction].
        - intros [Hu Y]. assert (Z : In u (b :: a5)) by (eapply Permutation_in; [exact E5|auto]). destruct Z as [<-|]; auto. contradiction. }
      assert (M4 : inv_map a4) by (apply (ext_inv g a4 [] G4); auto; apply ext_sem; auto; exists C1; split; [apply C1_neq_C0|]; intros y; rewrite S4; ring).
      constructor; auto.
      * constructor.
        -- split; [apply F|]. intros u Hu. destruct (fk_v _ _ _ F u Hu) as [q [Q [Lq [Tu Eu]]]]. exists q. rewrite On, OV. split; auto. split; auto.
           rewrite EO by auto. split; auto. rewrite (proj1 (Told u (Iff u Hu))). auto.
        -- intros u Hu q Q. destruct (CC u Hu q Q) as [Y1 Y2]. destruct (fk_v _ _ _ F u Hu) as [q' [Q' [Lq _]]]. assert (q' = q) by congruence. subst q'.
           rewrite OV, EO by auto. split; auto. rewrite (proj2 (Told u (Iff u Hu))). auto.
        -- intros u x Hu Hx. rewrite Eold; auto; intros Z; injection Z as -> ->.
           ++ apply (fr_in g qm fr b F) in Hx. destruct Hx; congruence.
           ++ apply (fr_in g qm fr b F) in Hu. destruct Hu; congruence.
      * intros u Du Iu. rewrite V4, in_app_iff in Iu. destruct Iu as [Iu|[<-|[]]]; [|congruence]. destruct (GD u Du Iu) as [K1 [K2 K3]].
        destruct (Told u Iu) as [Y1 Y2]. rewrite Y1, Y2. split; auto. split; auto. intros x Ex. rewrite T4. destruct (Nat.eqb_spec x w) as [->|Y]; auto.
        apply K3. rewrite <- Eold; auto; intros Z; injection Z as -> ->; [|congruence].
        destruct (fk_v _ _ _ F v Hv) as [q [_ [Lq [_ Eo]]]]. apply K3 in Eo. assert (Z := proj2 (gk_out g G q Lq)). unfold outv in Eo. congruence.
      * apply nadd_nd; auto.
      * intros u Hu. apply nadd_in in Hu. rewrite in_app_iff in Hu. rewrite V4, in_app_iff. destruct Hu as [Hu|[Hu|[<-|[]]]].
        -- destruct (NZ u Hu) as [Y1 [Y2 Y3]]. rewrite (proj1 (Told u Y2)). auto.
        -- apply Hin in Hu. destruct Hu as [Hu Y]. assert (Z : ~ In u (ginputs g)).
           { intros Z. apply Y. apply Hd in Hu. apply (one_in g G M v); auto; tauto. }
           destruct (Kd u Hu Z) as [Y1 [Y2 Y3]]. rewrite (proj1 (Told u Y2)). auto.
        -- rewrite T4, Nat.eqb_refl. split; auto. split; [simpl; auto|]. intros Z. apply Fw. auto.
      * intros u Hu. apply nadd_in in Hu. rewrite in_app_iff in Hu. destruct Hu as [Hu|[Hu|[<-|[]]]].
        -- destruct (NZ u Hu) as [Y1 [Y2 Y3]]. destruct (NA u Hu) as [x [Hx Ex]]. exists x. split; auto. rewrite Eold; auto; intros Z; injection Z as -> ->; [congruence|].
           apply (fr_in g qm fr b F) in Hx. destruct Hx; congruence.
        -- apply Hin in Hu. destruct Hu as [Hu Y]. exists v. split; auto. apply Hd in Hu as [Z1 Z2]. rewrite Eold; auto.
           ++ apply NWv. destruct (edge_type g v u) eqn:Z; [eapply edge_r; eauto|congruence].
           ++ intros Z. injection Z as ->. congruence.
           ++ intros Z. injection Z as ->. congruence.
        -- exists v. split; auto. rewrite ET4, (pair_hit_false w b v w), pair_hit_st; try discriminate; intros Z; injection Z; intros; congruence.
      * intros u x Hu Nu Ex. rewrite nadd_in, in_app_iff, O4. destruct (Nat.eq_dec x w) as [->|Yx]; [left; right; right; simpl; auto|].
        destruct (Nat.eq_dec u v) as [->|Yu].
        -- destruct (Nat.eq_dec x b) as [->|Yb].
           ++ exfalso. apply Ex. rewrite ET4, (pair_hit_false w b v b), (pair_hit_false v w v b), pair_hit_st; auto; intros Z; injection Z; intros; congruence.
           ++ rewrite Eold in Ex by (auto; intros Z; injection Z; intros; congruence). destruct (in_dec Nat.eq_dec x (goutputs g)); auto. left. right. left. apply Hin. split; auto. apply Hd. auto.
        -- rewrite Eold in Ex by (auto; intros Z; injection Z; intros; subst; try congruence; apply (fr_in g qm fr b F) in Hu; destruct Hu; congruence).
           destruct (D u x Hu) as [Z|Z]; auto. intros [Z|Z]; auto.
Qed.
Lemma nf_all_ok : forall g0 qm gad l g fr nset g' fr' nset', nfinv g0 qm gad l g fr nset -> foldM (nf_one true gad) l (g, fr, nset) = Ok (g', fr', nset') ->
  nfinv g0 qm gad [] g' fr' nset'.
Proof.
  induction l as [|v l IH]; intros g fr nset g' fr' nset' I H; cbn [foldM] in H; [congruence|].
  inv_bind H. destruct a as [[g1 fr1] n1]. eapply IH; [|exact H]. eapply nf_one_ok; eauto.
Qed.
(** the frontier after neighbors_of_frontier *)
Record fready (g : graph) (qm : dict nat) (fr nset : list nat) : Prop := mkfready {
  fy_f : fclean g qm fr; fy_n : NoDup nset; fy_z : forall w, In w nset -> vty g w = ZSP /\ In w (vertices g) /\ ~ In w fr;
  fy_a : forall w, In w nset -> exists v, In v fr /\ edge_type g v w <> None;
  fy_d : forall v u, In v fr -> edge_type g v u <> None -> In u nset \/ In u (goutputs g) }.
Lemma neighbors_of_frontier_ok : forall qm gad fr g g' fr' nset', gok g -> inv_map g -> fclean g qm fr -> gadok g gad ->
  neighbors_of_frontier true gad fr g = Ok (g', fr', nset') -> gok g' /\ ext g g' [] /\ inv_map g' /\ gadok g' gad /\ fready g' qm fr' nset'.
Proof.
  intros qm gad fr g g' fr' nset' G M F GD H. 
  assert (I0 : nfinv g qm gad fr g fr []).
  { constructor; auto; [apply ext_refl|constructor|intros w []|intros w []|apply incl_refl|apply F|]. intros v u A B. contradiction. }
  destruct (nf_all_ok _ _ _ _ _ _ _ _ _ _ I0 H) as [G' X' M' F' GD' N' NZ' NA' _ _ D']. split; [|split; [|split; [|split]]]; auto. constructor; auto. intros v u Hv. apply D'; auto.
Qed.
