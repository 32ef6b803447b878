(** Circuit extraction: clean_frontier as a whole. *)
From Coq Require Import Reals ZArith QArith Qcanon List Bool Arith Lia Permutation FunctionalExtensionality.
From Verif Require Import LinModel LinProofs CNum Base ScalarModel ScalarProofs GraphModel GraphSem SumLemmas GraphProofs GraphOps RulesModel RuleLemmas
  SpiderProofs IsoProofs IdProofs LcompProofs PivotProofs PivotMatch GrowProofs StoreProofs InvProofs BfixProofs TotalProofs GrowTotal
  GateModel CircSpec GateProofs GateMask AmpProofs CircGraphModel CircGraphProofs CircGraphFacts VerifyProofs GraphAlgModel GraphAlgProofs GraphAlgFacts
  ComposeProofs ApplyProofs ExtractModel ExtractSem ExtractMap ExtractClean ExtractCz.
Import ListNotations.
Open Scope C_scope.

Lemma remove_zz : forall g g' v w, gok g -> v <> w -> vty g v = ZSP -> vty g w = ZSP -> remove_edge v w g = Ok g' ->
  gok g' /\ soft g g' /\ edge_type g v w = Some HADAMARD /\ (forall u x, edge_type g' u x = if pair_hit v w u x then None else edge_type g u x) /\
  (forall u, phase g' u = phase g u) /\
  (forall x, integL (vertices g) g x = sq2p (-1) * sgn (x v && x w) * integL (vertices g') g' x).
Proof.
  intros g g' v w G D Tv Tw R. assert (W := gk_wf g G). destruct (remove_edge_spec _ _ _ _ W D R) as [W' [F [P [S [Iv [Iw [E ET]]]]]]].
  assert (EH : edge_type g v w = Some HADAMARD).
  { destruct (edge_type g v w) as [e|] eqn:X; [|congruence]. f_equal. apply (proj2 (gk_gl _ G) v w e); auto. }
  assert (PH : forall u, phase g' u = phase g u) by (intros; unfold phase; rewrite P; auto).
  assert (Sub : forall u x, edge_type g' u x <> None -> edge_type g u x <> None) by (intros u x; rewrite ET; destruct (pair_hit v w u x); congruence).
  assert (HB : forall u x, vty g u = BOUNDARY -> edge_type g' u x = edge_type g u x).
  { intros u x T. rewrite ET, pair_hit_false; auto; intros Y; injection Y as -> ->; congruence. }
  assert (G' : gok g').
  { apply (gok_frame g g' G W' F).
    - intros u Hu. rewrite PH. apply (zx_ph _ (zi_zx _ (gk_z _ G))); auto.
    - auto.
    - intros u x T. rewrite HB by auto. tauto.
    - intros u. rewrite ET. destruct (pair_hit v w u u); auto. apply (gk_nl g G).
    - intros u x e. rewrite ET. destruct (pair_hit v w u x); [discriminate|]. apply (proj2 (gk_gl _ G)). }
  split; auto. split; [split; auto; split; auto; split; auto; intros u x T; rewrite HB; auto|]. split; auto. split; auto. split; auto.
  intros x. rewrite (proj1 F : vertices g' = vertices g).
  destruct (edge_factor g g' (vertices g) v w x W W' (wf_nd g W) Iv Iw D S) as [R0 [E1 E2]].
  { intros u Hu. split; [apply same_frame_vty; auto|auto]. }
  { intros u y _ _ X. rewrite ET, X. auto. }
  rewrite E1, E2, ew_plain by (apply gk_X; auto). unfold ew. rewrite EH, ET, pair_hit_st. cbn [option_map wt]. ring.
Qed.
Record czinv (g0 : graph) (qm : dict nat) (fr : list nat) (g : graph) (cz : mat) : Prop := mkczinv {
  ci_g : gok g; ci_s : soft g0 g; ci_cz : czok (nout g0) cz;
  ci_v : exists z, z <> C0 /\ forall i y, val g0 i y = z * (sgn (cqf (get cz) (pairs (nout g0)) y) * val g i y);
  ci_e : forall v w qv qw, In v fr -> In w fr -> dget v qm = Some qv -> dget w qm = Some qw -> get cz qv qw = true -> edge_type g v w = None;
  ci_c : forall v, In v fr -> clean g qm v }.
Lemma cz_nbr_ok : forall g0 qm fr g cz v w g' cz', gok g0 -> frok g0 qm fr -> In v fr -> v <> w -> czinv g0 qm fr g cz -> cz_nbr qm fr v (g, cz) w = Ok (g', cz') ->
  czinv g0 qm fr g' cz' /\ (In w fr -> edge_type g' v w = None) /\ forall u x, edge_type g u x = None -> edge_type g' u x = None.
Proof.
  intros g0 qm fr g cz v w g' cz' G0 F0 Hv D I H. unfold cz_nbr in H. destruct (nmem w fr) eqn:B.
  2:{ injection H as <- <-. split; auto. split; auto. intros X. apply nmem_spec in X. congruence. }
  apply nmem_spec in B. inv_bind H. inv_bind H. inv_bind H. inv_bind H. inv_bind H. injection H as <- <-.
  apply of_opt_some in E, E0. rename a into qv, a0 into qw. destruct I as [G S K [z [Z V]] CE CC].
  assert (F := frok_soft g0 g qm fr G0 G S F0). destruct (fk_v _ _ _ F v Hv) as [q1 [Q1 [L1 [Tv X1]]]]. destruct (fk_v _ _ _ F w B) as [q2 [Q2 [L2 [Tw X2]]]].
  assert (q1 = qv) by congruence. assert (q2 = qw) by congruence. subst q1 q2.
  assert (Dq : qv <> qw) by (intros <-; apply D; apply (frok_inj g qm fr v w qv); auto).
  destruct (put2 (nout g0) qv qw true cz a1 a2 K Dq E1 E2) as [K' [_ [_ [GT CQ]]]].
  destruct (remove_zz g a3 v w G D Tv Tw E3) as [G' [S' [EH [ET [PH I0]]]]].
  assert (C0' : get cz qv qw = false).
  { destruct (get cz qv qw) eqn:Y; auto. rewrite (CE v w qv qw) in EH by auto. discriminate. }
  assert (Mono : forall u x, edge_type g u x = None -> edge_type a3 u x = None) by (intros u x Y; rewrite ET; destruct (pair_hit v w u x); auto).
  assert (ON : forall q, outv a3 q = outv g q) by (intros; apply soft_out; auto).
  assert (Cl : forall u, In u fr -> clean a3 qm u).
  { intros u Hu q Q. destruct (CC u Hu q Q) as [Y1 Y2]. rewrite ON, PH. split; auto. rewrite ET, pair_hit_false; auto; intros Y; injection Y as -> Y; apply (fk_v _ _ _ F) in Hu; destruct Hu as [q' [Q' [L' _]]].
    - assert (T : vty g (outv g q) = BOUNDARY) by (apply (gk_out g G); congruence). rewrite Y in T. congruence.
    - assert (T : vty g (outv g q) = BOUNDARY) by (apply (gk_out g G); congruence). rewrite Y in T. congruence. }
  split; [constructor; auto|split].
  - eapply soft_trans; eauto.
  - exists (z * sq2p (-1)). split; [apply Cmult_neq0; auto; apply sq2p_neq0|]. intros i y. rewrite V.
    assert (X : val g i y = sq2p (-1) * sgn (y qv && y qw) * val a3 i y).
    { destruct (CC v Hv qv E) as [Sv _]. destruct (CC w B qw E0) as [Sw _]. unfold val.
      destruct (Cl v Hv qv E) as [Sv' _]. destruct (Cl w B qw E0) as [Sw' _]. rewrite ON in Sv', Sw'.
      destruct (gk_out g G qv L1) as [_ T1]. destruct (gk_out g G qw L2) as [_ T2]. fold (outv g qv) in T1. fold (outv g qw) in T2.
      rewrite (diag_step g a3 v (outv g qv) w (outv g qw) (fun a b => sq2p (-1) * sgn (a && b))); auto.
      - unfold outv. rewrite !(bits_out' g G) by auto. destruct (proj1 S') as [_ [_ [-> [-> _]]]]. auto.
      - apply gk_wf; auto. - apply S'. - intros; apply (soft_ty g a3); auto.
      - apply gk_X; auto. eapply edge_in_l; eauto. - apply gk_X; auto. rewrite wf_sym in EH by (apply gk_wf; auto). eapply edge_in_l; eauto.
      - intros Y. rewrite <- Y in T1. congruence. - intros Y. rewrite <- Y in T2. congruence. }
    rewrite X, CQ, C0', sgn_xor. cbn [xorb andb]. ring.
  - intros u x qu qx Hu Hx Qu Qx. rewrite GT. destruct (pair_hit qv qw qu qx) eqn:Y; [intros _|intros Y0; apply Mono; apply (CE u x qu qx); auto].
    rewrite ET. replace (pair_hit v w u x) with true; auto. symmetry. unfold pair_hit in *. apply orb_true_iff in Y.
    destruct Y as [Y|Y]; apply andb_true_iff in Y; destruct Y as [Ya Yb]; apply Nat.eqb_eq in Ya, Yb; subst qu qx.
    + assert (u = v) by (apply (frok_inj g qm fr u v qv); auto). assert (x = w) by (apply (frok_inj g qm fr x w qw); auto). subst. rewrite !Nat.eqb_refl. auto.
    + assert (u = w) by (apply (frok_inj g qm fr u w qw); auto). assert (x = v) by (apply (frok_inj g qm fr x v qv); auto). subst. rewrite !Nat.eqb_refl. apply orb_true_r.
  - intros _. rewrite ET, pair_hit_st. auto.
  - auto.
Qed.
Lemma cz_nbrs_ok : forall g0 qm fr v ns g cz g' cz', gok g0 -> frok g0 qm fr -> In v fr -> ~ In v ns -> czinv g0 qm fr g cz -> foldM (cz_nbr qm fr v) ns (g, cz) = Ok (g', cz') ->
  czinv g0 qm fr g' cz' /\ (forall w, In w ns -> In w fr -> edge_type g' v w = None) /\ forall u x, edge_type g u x = None -> edge_type g' u x = None.
Proof.
  induction ns as [|w ns IH]; intros g cz g' cz' G0 F0 Hv N I H; cbn [foldM] in H.
  - injection H as <- <-. split; auto. split; auto. intros w [].
  - inv_bind H. destruct a as [g1 cz1]. destruct (cz_nbr_ok g0 qm fr g cz v w g1 cz1 G0 F0 Hv) as [I1 [E1 M1]]; auto. { intros ->. apply N. simpl; auto. }
    destruct (IH g1 cz1 g' cz' G0 F0 Hv) as [I2 [E2 M2]]; auto. { intros X. apply N. simpl; auto. }
    split; auto. split; auto. intros x [<-|Hx]; auto.
Qed.
Lemma cz_all_ok : forall g0 qm fr l g cz g' cz', gok g0 -> frok g0 qm fr -> incl l fr -> czinv g0 qm fr g cz -> foldM (cz_one qm fr) l (g, cz) = Ok (g', cz') ->
  czinv g0 qm fr g' cz' /\ (forall v w, In v l -> In w fr -> edge_type g' v w = None) /\ forall u x, edge_type g u x = None -> edge_type g' u x = None.
Proof.
  induction l as [|v l IH]; intros g cz g' cz' G0 F0 Hl I H; cbn [foldM] in H.
  - injection H as <- <-. split; auto. split; auto. intros v w [].
  - inv_bind H. destruct a as [g1 cz1]. unfold cz_one in E. inv_bind E. cbn [fst] in E0. apply neighbors_r_inv in E0. destruct E0 as [_ ->].
    destruct (cz_nbrs_ok g0 qm fr v (neighbors g v) g cz g1 cz1 G0 F0) as [I1 [E1 M1]]; auto; [apply Hl; simpl; auto| |].
    { intros X. apply neighbors_spec in X. apply X. apply (gk_nl g (ci_g _ _ _ _ _ I)). }
    destruct (IH g1 cz1 g' cz' G0 F0) as [I2 [E2 M2]]; auto. { intros u Hu. apply Hl; simpl; auto. }
    split; auto. split; auto. intros u w [<-|Hu] Hw; auto. apply M2. destruct (in_dec Nat.eq_dec w (neighbors g v)) as [X|X]; auto.
    apply M1. rewrite neighbors_spec in X. destruct (edge_type g v w); auto. exfalso. apply X. discriminate.
Qed.
Lemma clean_frontier_ok : forall opt s g g' gs', gok g -> inv_map g -> frok g (x_qm s) (x_fr s) -> clean_frontier opt s g = Ok (g', gs') ->
  exists new, gs' = x_gs s ++ new /\ ext g g' new /\ gok g' /\ soft g g' /\ (forall v, In v (x_fr s) -> clean g' (x_qm s) v) /\
  (forall v w, In v (x_fr s) -> In w (x_fr s) -> edge_type g' v w = None).
Proof.
  intros opt s g g' gs' G M F H. unfold clean_frontier in H. inv_bind H. destruct a as [g1 gs1].
  destruct (clean_all_ok _ _ _ _ _ _ _ (incl_refl _) G M F E) as [n1 [-> [X1 [G1 [S1 [Cl1 _]]]]]].
  inv_bind H. destruct a as [g2 cz]. assert (F1 := frok_soft _ _ _ _ G G1 S1 F).
  assert (On : nout g1 = nout g) by (apply soft_nout; auto).
  assert (I1 : czinv g1 (x_qm s) (x_fr s) g1 (mat_zeros (length (goutputs g)) (length (goutputs g)))).
  { destruct (zeros_ok (nout g)) as [K0 Z0]. constructor; auto.
    - apply soft_refl. - rewrite On. auto.
    - exists C1. split; [apply C1_neq_C0|]. intros i y. rewrite cqf_zero by auto. unfold sgn. ring.
    - intros v w qv qw _ _ _ _ Y. fold (nout g) in Y. rewrite Z0 in Y. discriminate. }
  destruct (cz_all_ok g1 _ _ _ _ _ _ _ G1 F1 (incl_refl _) I1 E0) as [I2 [E2 _]].
  inv_bind H. destruct a as [cz' gs2]. injection H as <- <-. destruct I2 as [G2 S2 K2 [z [Z V]] _ CC].
  assert (SH : exists n2, gs2 = (x_gs s ++ n1) ++ n2 /\ Forall (gate_in (nout g)) n2 /\ czok (nout g) cz' /\
     forall st y, sgn (cqf (get cz) (pairs (nout g)) y) * st y = cden (rev n2) (fun y => sgn (cqf (get cz') (pairs (nout g)) y) * st y) y).
  { rewrite On in K2. destruct opt.
    - destruct (share_ok _ _ _ _ _ _ K2 E1) as [n2 [-> [A [B D]]]]. exists n2. auto.
    - injection E1 as <- <-. exists []. rewrite app_nil_r. auto. }
  destruct SH as [n2 [-> [Fn2 [Kz Sh]]]].
  exists (n1 ++ n2 ++ cz_gates (nout g) cz'). split; [rewrite <- !app_assoc; auto|]. split; [|split; auto; split; [eapply soft_trans; eauto|split; auto]].
  eapply ext_trans; [exact X1|]. split; [apply S2|]. split; [apply S2|]. split.
  - rewrite On. apply Forall_app. split; auto. apply cz_gates_in.
  - exists z. split; auto. intros i y. rewrite V, On, rev_app_distr, cden_app. f_equal. rewrite Sh. f_equal.
    apply functional_extensionality. intros y'. rewrite cz_gates_pairs, pgates_den. auto.
Qed.
