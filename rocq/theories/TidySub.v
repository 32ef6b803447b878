(** Splitting a wire by a phase-free spider. *)
From Coq Require Import Reals ZArith QArith Qcanon List Bool Arith Lia Permutation FunctionalExtensionality.
From Verif Require Import LinModel LinProofs CNum Base ScalarModel ScalarProofs GraphModel GraphSem SumLemmas GraphProofs GraphOps RulesModel RuleLemmas
  SpiderProofs IsoProofs IdProofs LcompProofs PivotProofs PivotMatch GrowProofs StoreProofs InvProofs BfixProofs TotalProofs GrowTotal
  GateModel CircSpec GateProofs GateMask AmpProofs CircGraphModel CircGraphProofs CircGraphFacts VerifyProofs GraphAlgModel GraphAlgProofs GraphAlgFacts
  ComposeProofs ApplyProofs ExtractModel ExtractSem ExtractMap ExtractClean ExtractCz ExtractFront ExtractNbrs SimpModel TidyModel.
Import ListNotations.
Open Scope nat_scope.

(** the same diagram *)
Record geq (g h : graph) : Prop := mkgeq {
  ge_v : vertices h = vertices g; ge_t : forall u, vty h u = vty g u; ge_p : forall u, phase h u = phase g u;
  ge_e : forall u v, edge_type h u v = edge_type g u v; ge_s : gscalar h = gscalar g;
  ge_i : ginputs h = ginputs g; ge_o : goutputs h = goutputs g }.
Lemma geq_sem : forall g h b, geq g h -> sem h b = sem g b.
Proof.
  intros g h b [V T P E S _ _]. unfold sem.
  assert (I : internal h = internal g).
  { unfold internal. rewrite V. apply filter_ext. intros u. unfold isB. rewrite T. auto. }
  rewrite I, V. apply sumv_ext. intros x. apply integL_ext; auto.
Qed.
Lemma geq_zinv : forall g h, geq g h -> wfg h -> rows_ok h -> zinv g -> zinv h.
Proof.
  intros g h [V T P E S I O] W R [[W0 NL ZX ZP ZI] D BP _ IO]. constructor; auto.
  - constructor; auto.
    + intros v. rewrite E. auto.
    + intros v Hv. rewrite T. apply ZX. congruence.
    + intros v Hv. rewrite P. apply ZP. congruence.
    + intros v. rewrite I, O, V. intros X. destruct (ZI v X). split; auto. unfold isB. rewrite T. auto.
  - intros b Hb Tb. rewrite T in Tb. rewrite V in Hb. destruct (D b Hb Tb) as [u Hu]. exists u. intros w. rewrite E. auto.
  - intros b Hb Tb. rewrite T in Tb. rewrite P. apply BP; auto. congruence.
  - intros b Hb Tb. rewrite T in Tb. rewrite I, O. apply IO; auto. congruence.
Qed.

Definition subdiv (a b : nat) (e1 e2 : etype) (g : graph) : res (graph * nat) :=
  let (g, w) := add_vertex ZSP 0%Qc 0%Qc (Some 0%Qc) g in
  let* g := remove_edge a b g in
  let* g := add_edge a w e1 g in
  let* g := add_edge w b e2 g in
  Ok (g, w).

Record subd (a b : nat) (e1 e2 : etype) (w : nat) (g h : graph) : Prop := mksubd {
  sd_z : zinv h; sd_sem : forall y, sem h y = sem g y; sd_v : vertices h = vertices g ++ [w]; sd_w : w = gvindex g;
  sd_n : gvindex h = S (gvindex g);
  sd_t : forall u, vty h u = if Nat.eqb u w then ZSP else vty g u;
  sd_p : forall u, phase h u = if Nat.eqb u w then 0%Qc else phase g u;
  sd_i : ginputs h = ginputs g; sd_o : goutputs h = goutputs g; sd_s : gscalar h = gscalar g;
  sd_e : forall u x, edge_type h u x = if pair_hit w b u x then Some e2 else if pair_hit a w u x then Some e1 else
    if pair_hit a b u x then None else edge_type g u x }.

Lemma add_vertex_vindex : forall t q r p g g' v, add_vertex t q r p g = (g', v) -> v = gvindex g /\ gvindex g' = S (gvindex g).
Proof.
  intros t q r p g g' v H. unfold add_vertex in H. injection H as H <-. split; auto.
  subst g'. destruct (qeqb _ _); cbn; lia.
Qed.
Lemma add_vertex_None : forall t q r g, t <> HBOX -> add_vertex t q r None g = add_vertex t q r (Some 0%Qc) g.
Proof. intros [] q r g H; try reflexivity. contradiction. Qed.

Lemma bphz_ok : forall g, bphz g -> forall b, In b (vertices g) -> vty g b = BOUNDARY -> phase g b = 0%Qc.
Proof. auto. Qed.

Lemma subdiv_ok : forall a b e1 e2 g, zinv g -> a <> b -> isX g a = false -> isX g b = false ->
  edge_type g a b = Some (join_e e1 e2) -> exists h w, subdiv a b e1 e2 g = Ok (h, w) /\ subd a b e1 e2 w g h.
Proof.
  intros a b e1 e2 g Z Dab Xa Xb E. assert (W := zx_wf _ (zi_zx _ Z)).
  assert (Ia : In a (vertices g)) by (eapply edge_in_l; eauto).
  assert (Ib : In b (vertices g)) by (eapply edge_in_r; eauto).
  unfold subdiv. destruct (add_vertex ZSP 0%Qc 0%Qc (Some 0%Qc) g) as [g1 w] eqn:A1.
  destruct (add_vertex_spec _ _ _ _ _ _ _ W A1) as [Ew [W1 [V1 [ET1 [_ [T1 [P1 [I1 [O1 S1]]]]]]]]].
  destruct (add_vertex_rows _ _ _ _ _ _ _ W (zi_rows _ Z) A1) as [_ [R1 _]].
  destruct (add_vertex_vindex _ _ _ _ _ _ _ A1) as [_ N1].
  assert (Fw : ~ In w (vertices g)) by (rewrite Ew; apply fresh_not_in; auto).
  assert (Daw : a <> w) by (intros ->; contradiction). assert (Dwb : w <> b) by (intros ->; contradiction).
  assert (Nw : forall u, edge_type g w u = None) by (intros u; destruct (edge_type g w u) eqn:X; auto; exfalso; apply Fw; eapply edge_in_l; eauto).
  assert (Nw' : forall u, edge_type g u w = None) by (intros u; rewrite wf_sym; auto).
  destruct (remove_edge_ok a b g1 (join_e e1 e2) W1 Dab) as [g2 A2]; [rewrite ET1; auto|]. rewrite A2. cbn [bind].
  destruct (remove_edge_spec _ _ _ _ W1 Dab A2) as [W2 [F2 [P2 [S2 [_ [_ [_ ET2]]]]]]].
  assert (E2 : edge_type g2 a w = None) by (rewrite ET2, ET1, Nw'; destruct (pair_hit _ _ _ _); auto).
  assert (V2 : forall u, In u (vertices g2) <-> In u (vertices g) \/ u = w).
  { intros u. rewrite (proj1 F2), V1, in_app_iff. simpl. intuition. }
  destruct (add_edge_ok a w e1 g2 W2 Daw) as [g3 A3]; [apply V2; auto|apply V2; auto|left; auto|]. rewrite A3. cbn [bind].
  destruct (fresh_edge _ _ _ _ _ W2 Daw E2 A3) as [W3 [F3 [P3 [S3 [_ [_ ET3]]]]]].
  assert (E3 : edge_type g3 w b = None).
  { rewrite ET3, ET2, ET1, Nw. rewrite pair_hit_false; [destruct (pair_hit _ _ _ _); auto| |]; intros X; injection X; intros; congruence. }
  assert (V3 : forall u, In u (vertices g3) <-> In u (vertices g) \/ u = w) by (intros u; rewrite (proj1 F3); auto).
  destruct (add_edge_ok w b e2 g3 W3 Dwb) as [g4 A4]; [apply V3; auto|apply V3; auto|left; auto|]. rewrite A4. cbn [bind].
  destruct (fresh_edge _ _ _ _ _ W3 Dwb E3 A4) as [W4 [F4 [P4 [S4 [_ [_ ET4]]]]]].
  exists g4, w. split; auto.
  assert (F : same_frame g1 g4) by (eapply same_frame_trans; [exact F2|]; eapply same_frame_trans; eauto).
  assert (ET : forall u x, edge_type g4 u x = if pair_hit w b u x then Some e2 else if pair_hit a w u x then Some e1 else if pair_hit a b u x then None else edge_type g u x).
  { intros u x. rewrite ET4, ET3, ET2, ET1. auto. }
  assert (T : forall u, vty g4 u = if Nat.eqb u w then ZSP else vty g u) by (intros; rewrite (same_frame_vty g1 g4) by auto; apply T1).
  assert (P : forall u, phase g4 u = if Nat.eqb u w then 0%Qc else phase g u).
  { intros u. unfold phase. rewrite P4, P3, P2. fold (phase g1 u). rewrite P1, qmod2_0. auto. }
  assert (V : vertices g4 = vertices g ++ [w]) by (rewrite (proj1 F); auto).
  assert (I4 : ginputs g4 = ginputs g) by (destruct F as [_ [_ [-> _]]]; auto).
  assert (O4 : goutputs g4 = goutputs g) by (destruct F as [_ [_ [_ [-> _]]]]; auto).
  assert (VI : forall u, In u (vertices g4) <-> In u (vertices g) \/ u = w) by (intros u; rewrite (proj1 F4); auto).
  assert (NL : noloop g4).
  { intros u. rewrite ET. rewrite !pair_hit_false; try (intros X; injection X; intros; congruence). apply (zi_zx _ Z). }
  assert (Told : forall u, In u (vertices g) -> vty g4 u = vty g u) by (intros u Hu; rewrite T; destruct (Nat.eqb_spec u w); auto; subst; contradiction).
  constructor; auto.
  - destruct Z as [Z D BP R IO]. destruct Z as [W0 NL0 ZX ZP ZI]. constructor.
    + constructor; auto.
      * intros u Hu. apply VI in Hu. destruct Hu as [Hu| ->]; [rewrite Told by auto; apply ZX; auto|]. rewrite T, Nat.eqb_refl. discriminate.
      * intros u Hu. rewrite P. destruct (Nat.eqb_spec u w); [split; simpl; unfold Qle, Qlt; simpl; lia|]. apply ZP. apply VI in Hu. tauto.
      * intros u Hu. rewrite I4, O4 in Hu. destruct (ZI u Hu) as [X Y]. split; [apply VI; auto|]. unfold isB. rewrite Told by auto. auto.
    + intros c Hc Tc. apply VI in Hc. destruct Hc as [Hc| ->]; [|rewrite T, Nat.eqb_refl in Tc; discriminate]. rewrite Told in Tc by auto.
      destruct (D c Hc Tc) as [u Hu].
      destruct (Nat.eq_dec c a) as [->|Xca]; [|destruct (Nat.eq_dec c b) as [->|Xcb]].
      * exists w. assert (u = b) by (symmetry; apply Hu; congruence). subst u.
        intros x. rewrite ET. unfold pair_hit. rewrite !Nat.eqb_refl, (proj2 (Nat.eqb_neq a w)), (proj2 (Nat.eqb_neq a b)) by auto. simpl.
        destruct (Nat.eqb_spec x w); [split; [auto|cbn; discriminate]|]. destruct (Nat.eqb_spec x b); [split; [cbn; congruence|intros; subst; contradiction]|].
        split; [intros Y; apply Hu in Y; contradiction|intros; contradiction].
      * exists w. assert (u = a) by (symmetry; apply Hu; rewrite wf_sym by auto; congruence). subst u.
        intros x. rewrite ET. unfold pair_hit. rewrite !Nat.eqb_refl, (proj2 (Nat.eqb_neq b w)), (proj2 (Nat.eqb_neq b a)) by auto. simpl.
        destruct (Nat.eqb_spec x w); [split; [auto|discriminate]|]. destruct (Nat.eqb_spec x a); [split; [congruence|intros; subst; contradiction]|].
        split; [intros Y; apply Hu in Y; contradiction|intros; contradiction].
      * exists u. intros x. assert (c <> w) by (intros ->; contradiction). rewrite ET, !pair_hit_false; auto; intros Y; injection Y; intros; subst; congruence.
    + intros c Hc Tc. apply VI in Hc. destruct Hc as [Hc| ->]; [|rewrite T, Nat.eqb_refl in Tc; discriminate]. rewrite Told in Tc by auto.
      rewrite P. destruct (Nat.eqb_spec c w); auto.
    + intros u Hu. destruct F as [FV [_ [_ [_ [_ [_ FR]]]]]]. rewrite FR. apply R1. rewrite <- FV. auto.
    + intros c Hc Tc. rewrite I4, O4. apply VI in Hc. destruct Hc as [Hc| ->]; [|rewrite T, Nat.eqb_refl in Tc; discriminate]. rewrite Told in Tc by auto. apply IO; auto.
  - intros y. symmetry. apply (sub_wire g g4 w a b e1 e2 y W W4 NL); auto.
    + apply VI. auto.
    + rewrite V, filter_app. simpl. unfold mem. simpl. rewrite Nat.eqb_refl. simpl. rewrite app_nil_r. symmetry. apply filter_true. intros u Hu.
      destruct (Nat.eqb_spec u w); auto. subst; contradiction.
    + congruence.
    + intros u Hu. rewrite T, P. destruct (Nat.eqb_spec u w); auto. subst; contradiction.
    + rewrite T, Nat.eqb_refl. auto.
    + rewrite P, Nat.eqb_refl. auto.
    + unfold isX in *. rewrite Told by auto. auto.
    + unfold isX in *. rewrite Told by auto. auto.
    + rewrite ET. rewrite (pair_hit_false w b w a), (pair_hit_sym a w), pair_hit_st; auto; intros X; injection X; intros; congruence.
    + rewrite ET, pair_hit_st. auto.
    + intros u X Y. rewrite ET, Nw, !pair_hit_false; auto; intros Q; injection Q; intros; congruence.
    + rewrite ET. rewrite (pair_hit_false w b a b), (pair_hit_false a w a b), pair_hit_st; auto; intros X; injection X; intros; congruence.
    + intros u x Hu Hx X. rewrite ET, X, !pair_hit_false; auto; intros Q; injection Q; intros; subst; contradiction.
  - destruct F as [_ [_ [_ [_ [-> _]]]]]. auto.
  - congruence.
Qed.
