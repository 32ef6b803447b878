(** Circuit extraction: extracting a spider that has a single neighbour besides its output. *)
From Coq Require Import Reals ZArith QArith Qcanon List Bool Arith Lia Permutation FunctionalExtensionality.
From Verif Require Import LinModel LinProofs CNum Base ScalarModel ScalarProofs GraphModel GraphSem SumLemmas GraphProofs GraphOps RulesModel RuleLemmas
  SpiderProofs IsoProofs IdProofs LcompProofs PivotProofs PivotMatch GrowProofs StoreProofs InvProofs BfixProofs TotalProofs GrowTotal
  GateModel CircSpec GateProofs GateMask AmpProofs CircGraphModel CircGraphProofs CircGraphFacts VerifyProofs GraphAlgModel GraphAlgProofs GraphAlgFacts
  ComposeProofs ApplyProofs GflowModel ExtractModel ExtractSem ExtractMap ExtractClean ExtractCz ExtractFront ExtractNbrs ExtractCnot.
Import ListNotations.
Open Scope C_scope.

Lemma take_step : forall g q v w g1 g2, gok g -> (q < nout g)%nat -> vty g v = ZSP -> vty g w = ZSP -> phase g v = 0%Qc ->
  edge_type g v (outv g q) = Some SIMPLE -> edge_type g v w <> None -> (forall u, edge_type g v u <> None -> u = w \/ u = outv g q) ->
  remove_vertices [v] g = Ok g1 -> add_edge w (outv g q) SIMPLE g1 = Ok g2 ->
  gok g2 /\ ext g g2 [GHAD q] /\ ginputs g2 = ginputs g /\ goutputs g2 = goutputs g /\
  (forall u, In u (vertices g2) <-> In u (vertices g) /\ u <> v) /\ (forall u, u <> v -> vty g2 u = vty g u /\ phase g2 u = phase g u) /\
  (forall u x, edge_type g2 u x = if pair_hit w (outv g q) u x then Some SIMPLE else if Nat.eqb u v || Nat.eqb x v then None else edge_type g u x) /\
  edge_type g w (outv g q) = None.
Proof.
  intros g q v w g1 g2 G Q Tv Tw Pv Eo Ew EN R A. set (o := outv g q) in *. assert (W := gk_wf g G). assert (NL := gk_nl g G).
  destruct (gk_out g G q Q) as [Io To]. fold (outv g q) in Io, To. fold o in Io, To.
  assert (Iv : In v (vertices g)) by (eapply edge_in_l; eauto).
  assert (EH : edge_type g v w = Some HADAMARD).
  { destruct (edge_type g v w) as [e|] eqn:X; [|congruence]. f_equal. apply (proj2 (gk_gl _ G) v w e); auto. }
  assert (Iw : In w (vertices g)) by (eapply edge_r; eauto).
  assert (Dvw : v <> w) by (intros ->; rewrite NL in EH; discriminate). assert (Dvo : v <> o) by (intros Y; rewrite <- Y in To; congruence).
  assert (Dwo : w <> o) by (intros Y; rewrite <- Y in To; congruence).
  destruct (gk_deg g G o Io To) as [n Hn]. assert (n = v) by (symmetry; apply Hn; rewrite wf_sym by auto; congruence). subst n.
  assert (Ewo : edge_type g w o = None).
  { destruct (edge_type g w o) eqn:X; auto. exfalso. apply Dvw. symmetry. apply Hn. rewrite wf_sym by auto. congruence. }
  assert (RM := remove_vertices_spec _ _ _ W R). assert (W1 := rm_wf _ _ _ RM).
  assert (MV : forall u, mem u [v] = Nat.eqb u v) by (intros; unfold mem; simpl; rewrite orb_false_r; auto).
  assert (E1 : forall u x, edge_type g1 u x = if Nat.eqb u v || Nat.eqb x v then None else edge_type g u x) by (intros; rewrite (rm_edge _ _ _ RM), !MV; auto).
  assert (E1wo : edge_type g1 w o = None) by (rewrite E1, Ewo; destruct (_ || _); auto).
  destruct (fresh_edge _ _ _ _ _ W1 Dwo E1wo A) as [W2 [F2 [P2 [S2 [_ [_ E2]]]]]].
  assert (VI : forall u, In u (vertices g2) <-> In u (vertices g) /\ u <> v).
  { intros u. rewrite (proj1 F2), (rm_vs _ _ _ RM), filter_In, negb_true_iff, MV, Nat.eqb_neq. tauto. }
  assert (NI : forall u, u <> v -> ~ In u [v]) by (intros u Y [Z|[]]; auto).
  assert (T2 : forall u, u <> v -> vty g2 u = vty g u /\ phase g2 u = phase g u).
  { intros u Y. rewrite (same_frame_vty g1 g2) by auto. unfold phase at 1. rewrite P2. fold (phase g1 u). rewrite (rm_ty _ _ _ RM), (rm_phase _ _ _ RM) by auto. auto. }
  assert (FI : forall l, (forall u, In u l -> vty g u = BOUNDARY) -> filter (fun u => negb (mem u [v])) l = l).
  { intros l H. apply filter_true. intros u Hu. rewrite MV. apply negb_true_iff, Nat.eqb_neq. intros ->. rewrite (H v Hu) in Tv. discriminate. }
  assert (I2 : ginputs g2 = ginputs g).
  { destruct F2 as [_ [_ [-> _]]]. rewrite (rm_inputs _ _ _ RM). apply FI. intros u Hu. apply (gk_ins g G u Hu). }
  assert (O2 : goutputs g2 = goutputs g).
  { destruct F2 as [_ [_ [_ [-> _]]]]. rewrite (rm_outputs _ _ _ RM). apply FI. intros u Hu. apply (gk_outs g G u Hu). }
  assert (ET : forall u x, edge_type g2 u x = if pair_hit w o u x then Some SIMPLE else if Nat.eqb u v || Nat.eqb x v then None else edge_type g u x).
  { intros u x. rewrite E2, E1. auto. }
  assert (G2 : gok g2).
  { destruct G as [[Z D BP RW IO] N [GL1 GL2]]. destruct Z as [W0 NL0 ZX ZP ZI]. constructor.
    - constructor.
      + constructor; auto.
        * intros u. rewrite ET, pair_hit_false by (intros Y; injection Y; intros; congruence). rewrite NL. destruct (_ || _); auto.
        * intros u Hu. apply VI in Hu. rewrite (proj1 (T2 u (proj2 Hu))). apply ZX. tauto.
        * intros u Hu. apply VI in Hu. rewrite (proj2 (T2 u (proj2 Hu))). apply ZP. tauto.
        * intros u Hu. rewrite I2, O2 in Hu. destruct (ZI u Hu) as [Y1 Y2]. unfold isB in *. assert (u <> v) by (intros ->; rewrite Tv in Y2; discriminate).
          rewrite (proj1 (T2 u H)). split; auto. apply VI. auto.
      + intros b Hb Tb. apply VI in Hb. destruct Hb as [Hb Nb]. rewrite (proj1 (T2 b Nb)) in Tb. destruct (Nat.eq_dec b o) as [->|Yb].
        * exists w. intros x. rewrite ET. unfold pair_hit. rewrite Nat.eqb_refl, (proj2 (Nat.eqb_neq o w)), (proj2 (Nat.eqb_neq o v)) by auto. cbn [andb orb].
          destruct (Nat.eqb_spec x w) as [->|Yx]; [split; [auto|discriminate]|]. destruct (Nat.eqb_spec x v); [split; [congruence|contradiction]|].
          split; [intros Y; apply Hn in Y; contradiction|intros; contradiction].
        * destruct (D b Hb Tb) as [u Hu]. exists u. intros x. rewrite ET, pair_hit_false by (intros Y; injection Y; intros; subst; congruence).
          rewrite (proj2 (Nat.eqb_neq b v)) by auto. cbn [orb]. rewrite <- Hu. destruct (Nat.eqb_spec x v) as [->|]; [|tauto]. split; [congruence|].
          intros Y. exfalso. rewrite wf_sym in Y by auto. apply EN in Y. destruct Y; subst; congruence.
      + intros b Hb Tb. apply VI in Hb. destruct Hb as [Hb Nb]. destruct (T2 b Nb) as [Y1 Y2]. rewrite Y1 in Tb. rewrite Y2. apply BP; auto.
      + intros u Hu. apply VI in Hu. destruct Hu as [Hu Nu]. destruct F2 as [_ [_ [_ [_ [_ [_ FR]]]]]]. rewrite FR, (remove_vertices_rindex _ _ _ R) by auto. apply RW; auto.
      + intros b Hb Tb. apply VI in Hb. destruct Hb as [Hb Nb]. rewrite (proj1 (T2 b Nb)) in Tb. rewrite I2, O2. apply IO; auto.
    - unfold io_ok. rewrite I2, O2. auto.
    - split.
      + intros u Hu. apply VI in Hu. rewrite (proj1 (T2 u (proj2 Hu))). apply GL1. tauto.
      + intros u x e Eux Tu Tx. rewrite ET in Eux. destruct (pair_hit w o u x) eqn:Y.
        * exfalso. apply pair_hit_true in Y. destruct Y as [[-> ->]|[-> ->]]; [rewrite (proj1 (T2 o (fun z => Dvo (eq_sym z)))) in Tx|rewrite (proj1 (T2 o (fun z => Dvo (eq_sym z)))) in Tu]; congruence.
        * destruct (Nat.eqb_spec u v) as [|Y1], (Nat.eqb_spec x v) as [|Y2]; try discriminate. rewrite (proj1 (T2 u Y1)) in Tu. rewrite (proj1 (T2 x Y2)) in Tx. apply (GL2 u x e); auto. }
  split; auto. split; [|auto 10].
  assert (Iw2 : In w (vertices g2)) by (apply VI; auto). assert (Io2 : In o (vertices g2)) by (apply VI; auto).
  destruct (set_edge_type_ok w o HADAMARD g2 Iw2 Io2) as [h Eh]. destruct (set_edge_type_spec _ _ _ _ _ W2 Eh) as [Wh [Fh [Ph [Sh [_ [_ ETh]]]]]].
  assert (PHh : forall u, phase h u = phase g2 u) by (intros; unfold phase; rewrite Ph; auto).
  assert (TH : forall u, vty h u = vty g2 u) by (intros; apply same_frame_vty; auto).
  destruct (T2 w (not_eq_sym Dvw)) as [Tw2 _]. destruct (T2 o (not_eq_sym Dvo)) as [To2 _].
  assert (Gh : gok h).
  { apply (gok_frame g2 h G2 Wh Fh).
    - intros u Hu. rewrite PHh. apply (zx_ph _ (zi_zx _ (gk_z _ G2))); auto.
    - auto.
    - intros u x T. rewrite ETh. destruct (pair_hit w o u x) eqn:Y; [|tauto]. split; [|discriminate]. intros _. rewrite ET, Y. discriminate.
    - intros u. rewrite ETh, pair_hit_false; [apply (gk_nl g2 G2)| |]; intros Y; injection Y; intros; congruence.
    - intros u x e. rewrite ETh. destruct (pair_hit w o u x) eqn:Y; [congruence|]. apply (proj2 (gk_gl _ G2)). }
  assert (Ih : ginputs h = ginputs g) by (destruct Fh as [_ [_ [-> _]]]; auto). assert (Oh : goutputs h = goutputs g) by (destruct Fh as [_ [_ [_ [-> _]]]]; auto).
  change [GHAD q] with ([] ++ [GHAD q]). apply (ext_trans g h g2).
  - apply ext_sem; auto. exists C1. split; [apply C1_neq_C0|]. intros b. rewrite Cmult_1_l. symmetry.
    apply (sub_wire h g v w o HADAMARD SIMPLE b); auto.
    + rewrite (proj1 Fh), (proj1 F2), (rm_vs _ _ _ RM). auto.
    + rewrite Sh, S2, (rm_scalar _ _ _ RM). auto.
    + intros u Hu. rewrite (proj1 Fh) in Hu. apply VI in Hu. rewrite TH, PHh. apply T2. tauto.
    + apply (gk_X g G); auto.
    + apply (gk_X g G); auto.
    + intros u Y1 Y2. destruct (edge_type g v u) eqn:X; auto. exfalso. destruct (EN u); congruence.
    + rewrite ETh, pair_hit_st. auto.
    + intros u x Hu Hx Y. rewrite (proj1 Fh) in Hu, Hx. apply VI in Hu, Hx. rewrite ETh, Y, ET, Y. rewrite (proj2 (Nat.eqb_neq u v)), (proj2 (Nat.eqb_neq x v)) by tauto. auto.
  - assert (Lq : (q < nout h)%nat) by (unfold nout; rewrite Oh; auto). assert (Oq : outv h q = o) by (unfold outv; rewrite Oh; auto).
    apply (had_gate h g2 q w Gh G2 Lq); try congruence.
    + rewrite Oq, ETh, pair_hit_st. auto.
    + rewrite Oq. constructor; auto.
      * apply (gk_nl g2 G2). * apply (gk_deg g2 G2). * symmetry. apply (proj1 Fh).
      * intros u x. rewrite ETh. destruct (pair_hit w o u x) eqn:Y; [rewrite ET, Y; auto|auto].
Qed.

Record takeinv (g0 : graph) (gad : dict nat) (outs : list nat) (l : list (nat * nat)) (g : graph) (qm : dict nat) (fr : list nat) (hads : list gate) : Prop := mktakeinv {
  ti_g : gok g; ti_m : inv_map g; ti_x : ext g0 g hads; ti_f : frok g qm fr; ti_gad : gadok g gad; ti_o : goutputs g = outs;
  ti_nd : NoDup (map fst l);
  ti_l : forall v w, In (v, w) l -> In v fr /\ clean g qm v /\ vty g w = ZSP /\ edge_type g v w <> None /\
    (forall u, edge_type g v u <> None -> u = w \/ u = ovq g qm v) /\ dmem w gad = false /\ ~ In w (map fst l) }.
Lemma take_one_ok : forall g0 gad outs v w l g qm fr hads g' qm' fr' hads', takeinv g0 gad outs ((v, w) :: l) g qm fr hads ->
  take_one outs (g, qm, fr, hads) (v, w) = Ok (g', qm', fr', hads') -> takeinv g0 gad outs l g' qm' fr' hads'.
Proof.
  intros g0 gad outs v w l g qm fr hads g' qm' fr' hads' [G M X F GD O ND L] H. unfold take_one in H.
  inv_bind H. apply of_opt_some in E. rename a into q. inv_bind H. inv_bind H. inv_bind H. inv_bind H. injection H as <- <- <- <-.
  rename a into b, a0 into g1, a1 into g2, a2 into fr1.
  destruct (L v w) as [Hv [Cv [Tw [Ew [EN [Dw Nw]]]]]]; [simpl; auto|]. cbn [map fst] in ND, Nw. apply NoDup_cons_iff in ND. destruct ND as [ND1 ND2].
  rewrite <- O in E0. destruct (out_of_spec g v b qm fr q G M F Hv E E0) as [-> Q]. destruct (Cv q E) as [Eo Pv].
  destruct (fr_in g qm fr v F Hv) as [Iv Tv]. assert (OVv : ovq g qm v = outv g q) by (unfold ovq; rewrite E; auto). rewrite OVv in EN.
  destruct (take_step g q v w g1 g2 G Q Tv Tw Pv Eo Ew EN E1 E2) as [G2 [X2 [I2 [O2 [V2 [T2 [ET Ewo]]]]]]].
  assert (W := gk_wf g G). assert (NL := gk_nl g G). destruct (gk_out g G q Q) as [Io To]. fold (outv g q) in Io, To.
  assert (M2 := ext_inv g g2 _ G2 X2 M).
  assert (Dwo : w <> outv g q) by (intros Y; rewrite <- Y in To; congruence). assert (Dvo : v <> outv g q) by (intros Y; rewrite <- Y in To; congruence).
  assert (Dvw : v <> w) by (intros ->; rewrite NL in Ew; congruence).
  assert (Wfr : ~ In w fr).
  { intros Hw. destruct (fk_v _ _ _ F w Hw) as [q' [Q' [L' [_ E']]]].
    assert (D : outv g q' <> outv g q) by (intros Y; rewrite Y in E'; congruence). apply D.
    apply (one_outs g2 G2 M2 w); try (rewrite O2; apply nth_In; auto); auto.
    - rewrite ET. rewrite pair_hit_false by (intros Y; injection Y; intros; congruence). destruct (gk_out g G q' L') as [_ T'].
      rewrite (proj2 (Nat.eqb_neq w v)), (proj2 (Nat.eqb_neq (outv g q') v)); auto. intros Y. unfold outv in Y. congruence.
    - rewrite ET, pair_hit_st. discriminate. }
  apply lremove_perm in E3. assert (N' : NoDup (v :: fr1)) by (eapply Permutation_NoDup; [exact E3|apply F]).
  apply NoDup_cons_iff in N'. destruct N' as [N1 N2].
  assert (Hin : forall u, In u fr1 <-> In u fr /\ u <> v).
  { intros u. split.
    - intros Hu. split; [eapply Permutation_in; [symmetry; exact E3|simpl; auto]|intros ->; contradiction].
    - intros [Hu Y]. assert (Z : In u (v :: fr1)) by (eapply Permutation_in; [exact E3|auto]). destruct Z as [<-|]; auto. contradiction. }
  assert (OV : forall q, outv g2 q = outv g q) by (intros; unfold outv; rewrite O2; auto).
  assert (On : nout g2 = nout g) by (unfold nout; rewrite O2; auto).
  assert (QM : forall u, In u fr -> dget u (dset w q qm) = dget u qm) by (intros u Hu; rewrite dget_dset; destruct (Nat.eqb_spec u w); auto; subst; contradiction).
  (* edges of other spiders of the frontier *)
  assert (EF : forall u x, In u fr -> u <> v -> edge_type g2 u x = edge_type g u x).
  { intros u x Hu Y. assert (u <> w) by (intros ->; contradiction).
    rewrite ET. assert (u <> outv g q) by (intros ->; destruct (fr_in g qm fr _ F Hu); congruence).
    rewrite pair_hit_false by (intros Z; injection Z; intros; congruence). rewrite (proj2 (Nat.eqb_neq u v)) by auto. cbn [orb].
    destruct (Nat.eqb_spec x v) as [->|]; auto. destruct (edge_type g u v) eqn:Z; auto. exfalso.
    assert (Z' : edge_type g v u <> None) by (rewrite wf_sym by auto; congruence). apply EN in Z'. destruct Z'; congruence. }
  constructor; auto.
  - eapply ext_trans; eauto.
  - split.
    + apply RuleLemmas.nodup_app; auto; [repeat constructor; simpl; tauto|]. intros u Hu [<-|[]]. apply Hin in Hu. tauto.
    + intros u Hu. apply in_app_or in Hu. destruct Hu as [Hu|[<-|[]]].
      * apply Hin in Hu. destruct Hu as [Hu Y]. rewrite QM by auto. destruct (fk_v _ _ _ F u Hu) as [q' [Q' [L' [T' E']]]]. exists q'.
        rewrite On, OV, EF by auto. rewrite (proj1 (T2 u Y)). auto.
      * exists q. rewrite dget_dset, Nat.eqb_refl, On, OV. split; auto. split; auto. rewrite (proj1 (T2 w (not_eq_sym Dvw))). split; auto.
        rewrite ET, pair_hit_st. discriminate.
  - intros u Du Iu. apply V2 in Iu. destruct Iu as [Iu Y]. destruct (GD u Du Iu) as [K1 [K2 K3]]. destruct (T2 u Y) as [Y1 Y2]. rewrite Y1, Y2.
    split; auto. split; auto. intros x. rewrite ET. destruct (pair_hit w (outv g q) u x) eqn:Z.
    + exfalso. apply pair_hit_true in Z. destruct Z as [[-> ->]|[-> ->]]; congruence.
    + destruct (Nat.eqb_spec u v); [congruence|]. destruct (Nat.eqb_spec x v) as [->|Yx]; [simpl; congruence|]. cbn [orb]. intros Z2. rewrite (proj1 (T2 x Yx)). auto.
  - congruence.
  - intros v' w' Hl. destruct (L v' w') as [Hv' [Cv' [Tw' [Ew' [EN' [Dw' Nw']]]]]]; [simpl; auto|].
    assert (Y : v' <> v) by (intros ->; apply ND1; apply in_map_iff; exists (v, w'); auto).
    cbn [map fst] in Nw'. assert (Yw : w' <> v) by (intros ->; apply Nw'; simpl; auto).
    split; [apply in_or_app; left; apply Hin; auto|]. split.
    + intros q' Q'. rewrite QM in Q' by auto. destruct (Cv' q' Q') as [C1' C2']. rewrite OV, EF, (proj2 (T2 v' Y)) by auto. auto.
    + rewrite (proj1 (T2 w' Yw)), EF by auto. split; auto. split; auto. split; [|split; auto; intros Z; apply Nw'; simpl; auto].
      intros u. rewrite EF by auto. intros Z. unfold ovq. rewrite QM by auto. destruct (EN' u Z) as [|Z']; auto. right. rewrite Z'. unfold ovq.
      destruct (dget v' qm); auto.
Qed.
Lemma take_all_ok : forall g0 gad outs l g qm fr hads g' qm' fr' hads', takeinv g0 gad outs l g qm fr hads ->
  foldM (take_one outs) l (g, qm, fr, hads) = Ok (g', qm', fr', hads') -> takeinv g0 gad outs [] g' qm' fr' hads'.
Proof.
  induction l as [|[v w] l IH]; intros g qm fr hads g' qm' fr' hads' I H; cbn [foldM] in H; [congruence|].
  inv_bind H. destruct a as [[[g1 qm1] fr1] h1]. eapply IH; [|exact H]. eapply take_one_ok; eauto.
Qed.

(** the list of gates is only extended *)
Lemma take_one_prefix : forall outs l g qm fr hads pre g' qm' fr' hads', foldM (take_one outs) l (g, qm, fr, hads) = Ok (g', qm', fr', hads') ->
  foldM (take_one outs) l (g, qm, fr, pre ++ hads) = Ok (g', qm', fr', pre ++ hads').
Proof.
  induction l as [|[v w] l IH]; intros g qm fr hads pre g' qm' fr' hads' H; cbn [foldM] in *; [injection H as <- <- <- <-; auto|].
  inv_bind H. destruct a as [[[g1 qm1] fr1] h1]. unfold take_one in E at 1. unfold take_one at 1.
  repeat (let a := fresh "a" in let E' := fresh "E" in apply bind_ok in E; destruct E as [a [E' E]]; rewrite E'; cbn [bind]).
  injection E as <- <- <- <-. rewrite <- app_assoc in *. apply (IH _ _ _ _ pre _ _ _ _ H).
Qed.

(** ** The rows with a single one *)
Lemma rsum_cons : forall b r, rsum (b :: r) = (b2n b + rsum r)%nat.
Proof. reflexivity. Qed.
Lemma rsum_zero : forall r, rsum r = 0%nat -> forall j, nth j r false = false.
Proof.
  induction r as [|b r IH]; intros H j; [destruct j; auto|]. rewrite rsum_cons in H. destruct b; [discriminate|]. destruct j; cbn [nth]; auto.
Qed.
Lemma rsum_one : forall r, rsum r = 1%nat -> forall j, nth j r false = true -> forall k, nth k r false = true -> k = j.
Proof.
  induction r as [|b r IH]; intros H j Hj k Hk; [destruct j; discriminate|]. rewrite rsum_cons in H. destruct b; cbn [b2n] in H.
  - assert (H' : rsum r = 0%nat) by lia. destruct j, k; auto; cbn [nth] in *; rewrite (rsum_zero r H') in *; discriminate.
  - destruct j, k; cbn [nth] in *; try discriminate. f_equal. apply IH; auto.
Qed.
Lemma dset_in : forall (d : dict nat) k x k' x', In (k', x') (dset k x d) -> (k' = k /\ x' = x) \/ In (k', x') d.
Proof.
  induction d as [|[a b] d IH]; intros k x k' x' H; simpl in H.
  - destruct H as [H|[]]. injection H as <- <-. auto.
  - destruct (Nat.eqb_spec k a) as [->|]; destruct H as [H|H]; simpl; auto.
    + injection H as <- <-. auto.
    + destruct (IH _ _ _ _ H); auto.
Qed.
Definition goodp (m : mat) (fr nb : list nat) (v w : nat) : Prop := In v fr /\ In w nb /\ forall u, In u nb -> (ent m fr nb v u = true <-> u = w).
Lemma good_one_ok : forall m nb fr gv i gv', NoDup fr -> NoDup nb -> rect (length fr) (length nb) m -> good_one m nb fr gv i = Ok gv' ->
  NoDup (map fst gv) -> (forall v w, In (v, w) gv -> goodp m fr nb v w) -> NoDup (map fst gv') /\ (forall v w, In (v, w) gv' -> goodp m fr nb v w).
Proof.
  intros m nb fr gv i gv' N1 N2 R H ND HG. unfold good_one in H. destruct (Nat.eqb_spec (rsum (LinModel.row m i)) 1) as [S|S]; [|injection H as <-; auto].
  inv_bind H. apply of_opt_some in E. destruct (filter _ _) as [|j l] eqn:FI; [discriminate|]. inv_bind H. apply of_opt_some in E0. injection H as <-.
  rename a into v, a0 into w. assert (J : nth j (LinModel.row m i) false = true).
  { assert (Z : In j (filter (fun j => nth j (LinModel.row m i) false) (seq 0 (length (LinModel.row m i))))) by (rewrite FI; simpl; auto). apply filter_In in Z. tauto. }
  assert (Hv : In v fr) by (eapply nth_error_In; eauto). assert (Hw : In w nb) by (eapply nth_error_In; eauto).
  assert (Li : (i < length fr)%nat) by (apply nth_error_Some; congruence). assert (Lj : (j < length nb)%nat) by (apply nth_error_Some; congruence).
  apply (nth_error_nth _ _ 0%nat) in E, E0. split; [apply nodup_dset; auto|].
  assert (P : goodp m fr nb v w).
  { split; auto. split; auto. intros u Hu. unfold ent, get. rewrite <- E, index_nth by auto. split.
    - intros Z. assert (Y := rsum_one _ S j J _ Z). destruct (index_in nb u Hu) as [_ X]. rewrite <- X, Y. auto.
    - intros ->. rewrite <- E0, index_nth by auto. auto. }
  intros v' w' Hin. apply dset_in in Hin. destruct Hin as [[-> ->]|Hin]; auto.
Qed.
Lemma good_all_ok : forall m nb fr l gv gv', NoDup fr -> NoDup nb -> rect (length fr) (length nb) m -> foldM (good_one m nb fr) l gv = Ok gv' ->
  NoDup (map fst gv) -> (forall v w, In (v, w) gv -> goodp m fr nb v w) -> NoDup (map fst gv') /\ (forall v w, In (v, w) gv' -> goodp m fr nb v w).
Proof.
  induction l as [|i l IH]; intros gv gv' N1 N2 R H ND HG; cbn [foldM] in H; [injection H as <-; auto|].
  inv_bind H. destruct (good_one_ok m nb fr gv i a N1 N2 R E ND HG) as [A B]. eapply IH; eauto.
Qed.

(** ** apply_cnots as a whole *)
Lemma fready_front : forall g qm fr ns nb, gok g -> inv_map g -> fready g qm fr ns -> Permutation nb ns -> front g fr nb (ovq g qm).
Proof.
  intros g qm fr ns nb G M [[F CC FF] N Z _ D] P.
  assert (HP : forall u, In u nb <-> In u ns) by (intros u; split; apply Permutation_in; [auto|symmetry; auto]).
  constructor; auto.
  - apply F.
  - eapply Permutation_NoDup; [symmetry; exact P|auto].
  - intros u Hu Hn. apply HP in Hn. destruct (Z u Hn) as [_ [_ Y]]. auto.
  - intros u Hu. destruct (fr_in g qm fr u F Hu) as [Iu Tu]. destruct (fk_v _ _ _ F u Hu) as [q [Q _]]. destruct (CC u Hu q Q). auto.
  - intros u Hu. apply HP in Hu. destruct (Z u Hu) as [Y1 [Y2 _]]. auto.
  - intros u Hu. destruct (fk_v _ _ _ F u Hu) as [q [Q [L _]]]. unfold ovq. rewrite Q. destruct (CC u Hu q Q) as [Y _]. destruct (gk_out g G q L). auto.
  - intros u w Hu E. rewrite HP. destruct (D u w Hu E) as [|Y]; auto. right. destruct (fk_v _ _ _ F u Hu) as [q [Q [L [_ E']]]]. unfold ovq. rewrite Q.
    apply (one_outs g G M u); auto. apply nth_In. auto.
Qed.
Lemma front_move : forall g g' qm fr nb, front g fr nb (ovq g qm) -> gok g' -> same_frame g g' -> (forall u, phase g' u = phase g u) ->
  (forall u w, hit fr nb u w = false -> edge_type g' u w = edge_type g u w) -> front g' fr nb (ovq g' qm).
Proof.
  intros g g' qm fr nb [G N1 N2 D FV NV O E] G' F P H.
  assert (T : forall u, vty g' u = vty g u) by (intros; apply same_frame_vty; auto). assert (V : vertices g' = vertices g) by apply F.
  assert (OV : forall u, ovq g' qm u = ovq g qm u) by (intros u; unfold ovq, outv; destruct F as [_ [_ [_ [-> _]]]]; auto).
  constructor; auto.
  - intros u Hu. rewrite T, P, V. auto.
  - intros u Hu. rewrite T, V. auto.
  - intros u Hu. rewrite OV, T, V. destruct (O u Hu) as [Y1 [Y2 Y3]]. rewrite H; auto.
    destruct (hit fr nb u (ovq g qm u)) eqn:B; auto. exfalso. apply hit_true in B. destruct B as [[_ B]|[B _]]; [destruct (NV _ B)|destruct (FV _ B) as [_ [? _]]]; congruence.
  - intros u w Hu Y. rewrite OV. destruct (hit fr nb u w) eqn:B.
    + apply hit_true in B. destruct B as [[_ B]|[B1 B2]]; auto. exfalso. apply (D u); auto.
    + rewrite H in Y by auto. auto.
Qed.
Lemma biadj_ent : forall g fr nb u v, gok g -> (forall u, In u fr \/ In u nb -> vty g u = ZSP) -> In u fr -> In v nb ->
  edge_type g u v = if ent (bi_adj g nb fr) fr nb u v then Some HADAMARD else None.
Proof.
  intros g fr nb u v G T Hu Hv. unfold ent, get, LinModel.row, bi_adj.
  destruct (index_in fr u Hu) as [L1 E1]. destruct (index_in nb v Hv) as [L2 E2].
  rewrite (nth_indep _ [] (map (fun v => connected g v 0%nat) nb)) by (rewrite map_length; auto).
  rewrite (map_nth (fun w => map (fun v => connected g v w) nb)). rewrite E1.
  rewrite (nth_indep _ false (connected g 0%nat u)) by (rewrite map_length; auto). rewrite (map_nth (fun v => connected g v u)), E2.
  unfold connected. rewrite (wf_sym g (gk_wf g G) v u). destruct (edge_type g u v) as [e|] eqn:X; auto. f_equal. apply (proj2 (gk_gl _ G) u v e); auto.
Qed.
Lemma biadj_rect : forall g fr nb, rect (length fr) (length nb) (bi_adj g nb fr).
Proof. intros. split; unfold bi_adj; [apply map_length|]. intros r Hr. apply in_map_iff in Hr. destruct Hr as [x [<- _]]. apply map_length. Qed.
Lemma front_ty : forall g fr nb ov, front g fr nb ov -> forall u, In u fr \/ In u nb -> vty g u = ZSP.
Proof. intros g fr nb ov F u [Hu|Hu]; [apply (ft_fv _ _ _ _ F u Hu)|apply (ft_nv _ _ _ _ F u Hu)]. Qed.
(** the CNOTs and the new edges *)
Lemma cnot_stage : forall g qm fr nb cs m cn g', front g fr nb (ovq g qm) -> frok g qm fr -> (forall c t, In (c, t) cs -> c <> t) ->
  foldM (cnot_one qm fr) cs (bi_adj g nb fr, []) = Ok (m, cn) ->
  match cs with [] => Ok g | _ => connectivity_from_biadj m nb fr g end = Ok g' ->
  ext g g' cn /\ gok g' /\ same_frame g g' /\ (forall u, phase g' u = phase g u) /\ front g' fr nb (ovq g' qm) /\ rect (length fr) (length nb) m /\
  (forall u w, hit fr nb u w = false -> edge_type g' u w = edge_type g u w) /\
  (forall u v, In u fr -> In v nb -> edge_type g' u v = if ent m fr nb u v then Some HADAMARD else None).
Proof.
  intros g qm fr nb cs m cn g' F FO D H1 H2. assert (G := ft_g _ _ _ _ F). assert (T := front_ty _ _ _ _ F).
  destruct (cnots_ok g qm fr nb cs _ [] m cn F FO (biadj_rect g fr nb) D H1) as [new [-> [FG [R A]]]]. cbn [app].
  assert (K : gok g' /\ same_frame g g' /\ (forall u, phase g' u = phase g u) /\ gscalar g' = gscalar g /\
    (forall u w, hit fr nb u w = false -> edge_type g' u w = edge_type g u w) /\
    (forall u v, In u fr -> In v nb -> edge_type g' u v = if ent m fr nb u v then Some HADAMARD else None)).
  { destruct cs as [|c0 cs0].
    - injection H2 as <-. injection H1 as <-. split; auto. split; [apply same_frame_refl|]. split; auto. split; auto. split; auto.
      intros u v Hu Hv. apply biadj_ent; auto.
    - unfold connectivity_from_biadj in H2.
      destruct (conn_ok m fr nb _ g g' (ft_fr _ _ _ _ F) (ft_nb _ _ _ _ F) G T (ft_disj _ _ _ _ F) H2) as [G' [F' [P' [S' [E1 [_ E2]]]]]].
      split; auto. split; auto. split; auto. split; auto. split; auto. intros u v Hu Hv. destruct (index_in fr u Hu) as [L1 I1]. destruct (index_in nb v Hv) as [L2 I2].
      unfold ent. rewrite <- E2; [rewrite I1, I2; auto|]. apply in_prod; apply in_seq; lia. }
  destruct K as [G' [F' [P' [S' [E1 E2]]]]]. assert (F2 := front_move g g' qm fr nb F G' F' P' E1).
  split; [|auto 10].
  destruct F' as [V' [TT' [I' [O' FF']]]]. assert (F' : same_frame g g') by (split; auto).
  split; auto. split; auto. split; auto.
  exists (cfac (ent (bi_adj g nb fr) fr nb) fr nb * / cfac (ent m fr nb) fr nb). assert (N1 := cfac_neq0 (ent (bi_adj g nb fr) fr nb) fr nb). assert (N2 := cfac_neq0 (ent m fr nb) fr nb).
  split; [apply Cmult_neq0; auto; apply Cinv_neq0; auto|].
  intros i y. unfold val at 1. rewrite (front_famp g fr nb _ _ _ F (fun u v Hu Hv => biadj_ent g fr nb u v G T Hu Hv)). rewrite A.
  assert (RS : forall x, rest g' fr nb x = rest g fr nb x).
  { intros x. unfold rest. rewrite V', S'. f_equal; [f_equal|].
    - apply cprod_ext. intros v _. unfold pw, isB. rewrite (same_frame_vty g g'), P' by auto. auto.
    - apply pprod_ext. intros u v _ _. unfold frest. destruct (hit fr nb u v) eqn:B; auto. unfold ew. rewrite !(same_frame_isX g g'), E1 by auto. auto. }
  assert (FA : forall b, famp g' fr nb (ent m fr nb) b = famp g fr nb (ent m fr nb) b).
  { intros b. unfold famp. rewrite (same_frame_internal g g') by auto. apply sumv_ext. intros x. rewrite RS. auto. }
  replace (val g' i) with (fun y => cfac (ent m fr nb) fr nb * famp g fr nb (ent m fr nb) (bits (ginputs g) (goutputs g) i y)).
  2:{ apply functional_extensionality. intros y'. unfold val. rewrite (front_famp g' fr nb _ _ _ F2 E2), FA, I', O'. auto. }
  rewrite cden_scale. rewrite (Cmult_assoc (_ * / _)), <- (Cmult_assoc _ (/ _) _), Cinv_l by auto. ring.
Qed.

(** the invariant of the main loop *)
Record xinv (g0 g : graph) (s : xst) : Prop := mkxinv {
  xi_g : gok g; xi_m : inv_map g; xi_x : ext g0 g (x_gs s); xi_f : frok g (x_qm s) (x_fr s); xi_gad : gadok g (x_gad s) }.
Lemma apply_cnots_ok : forall g0 s g cs nb ns g' s', gok g -> inv_map g -> ext g0 g (x_gs s) -> gadok g (x_gad s) -> fready g (x_qm s) (x_fr s) ns -> Permutation nb ns ->
  (forall w, In w ns -> dmem w (x_gad s) = false) -> (forall c t, In (c, t) cs -> c <> t) ->
  apply_cnots cs (bi_adj g nb (x_fr s)) nb s g = Ok (g', s') -> xinv g0 g' s'.
Proof.
  intros g0 s g cs nb ns g' s' G M X GD FY P NG D H. destruct s as [qm fr gs gad]. cbn [x_qm x_fr x_gs x_gad] in *.
  assert (F := fready_front g qm fr ns nb G M FY P). assert (FO := fc_f _ _ _ (fy_f _ _ _ _ FY)).
  unfold apply_cnots in H. cbn [x_qm x_fr x_gs x_gad] in H. inv_bind H. destruct a as [m cn]. inv_bind H. rename a into g1.
  destruct (cnot_stage g qm fr nb cs m cn g1 F FO D E E0) as [X1 [G1 [F1 [P1 [FT1 [R [E1 E2]]]]]]].
  assert (M1 := ext_inv g g1 cn G1 X1 M). inv_bind H. rename a into gv.
  destruct (good_all_ok m nb fr _ [] gv (ft_fr _ _ _ _ F) (ft_nb _ _ _ _ F) R E3) as [ND HG]; [constructor|intros v w []|].
  assert (T1 : forall u, vty g1 u = vty g u) by (intros; apply same_frame_vty; auto).
  assert (OV : forall q, outv g1 q = outv g q) by (intros; unfold outv; destruct F1 as [_ [_ [_ [-> _]]]]; auto).
  assert (HP : forall u, In u nb <-> In u ns) by (intros u; split; apply Permutation_in; [auto|symmetry; auto]).
  destruct gv as [|p0 gv0] eqn:EG; [discriminate|]. rewrite <- EG in *. clear EG. inv_bind H. destruct a as [[[g2 qm2] fr2] hads]. injection H as <- <-.
  assert (FO1 : frok g1 qm fr).
  { split; [apply FO|]. intros v Hv. destruct (fk_v _ _ _ FO v Hv) as [q [Q [L [Tv _]]]]. exists q. split; auto.
    destruct (ft_o _ _ _ _ FT1 v Hv) as [_ [_ Y]]. unfold ovq in Y. rewrite Q in Y. rewrite T1. split; [unfold nout; destruct F1 as [_ [_ [_ [-> _]]]]; auto|]. split; auto. congruence. }
  assert (I : takeinv g0 gad (goutputs g1) gv g1 qm fr (gs ++ cn)).
  { constructor; auto.
    - eapply ext_trans; eauto.
    - intros w Dw Iw. rewrite (proj1 F1) in Iw. destruct (GD w Dw Iw) as [K1 [K2 K3]]. rewrite T1, P1. split; auto. split; auto.
      intros u Eu. rewrite T1. destruct (hit fr nb w u) eqn:B; [|rewrite E1 in Eu by auto; auto].
      apply hit_true in B. apply (front_ty _ _ _ _ F). tauto.
    - intros v w Hl. destruct (HG v w Hl) as [Hv [Hw K]]. split; auto. split; [|split; [|split; [|split; [|split]]]].
      + intros q Q. destruct (ft_o _ _ _ _ FT1 v Hv) as [_ [_ Y]]. unfold ovq in Y. rewrite Q in Y. split; auto. apply (ft_fv _ _ _ _ FT1 v Hv).
      + apply (ft_nv _ _ _ _ FT1 w Hw).
      + rewrite E2 by auto. rewrite (proj2 (K w Hw) eq_refl). discriminate.
      + intros u Eu. destruct (ft_e _ _ _ _ FT1 v u Hv Eu) as [Y|Y]; auto. left. apply (K u Y). rewrite E2 in Eu by auto. destruct (ent m fr nb v u); congruence.
      + apply NG. apply HP. auto.
      + intros Y. apply in_map_iff in Y. destruct Y as [[v' w'] [Y1 Y2]]. cbn [fst] in Y1. subst v'. destruct (HG w w' Y2) as [Y3 _]. apply (ft_disj _ _ _ _ F w); auto. }
  assert (E5 := take_one_prefix (goutputs g1) gv g1 qm fr [] (gs ++ cn) g2 qm2 fr2 hads E4). rewrite app_nil_r in E5.
  destruct (take_all_ok g0 gad (goutputs g1) gv g1 qm fr (gs ++ cn) g2 qm2 fr2 _ I E5) as [G2 M2 X2 F2 GD2 _ _ _].
  constructor; cbn [x_qm x_fr x_gs x_gad]; auto. rewrite app_assoc. auto.
Qed.
