(** The diagram made from a circuit meets the conditions of tensorfy_ok: inputs
    come first and are joined to later vertices only, X spiders are connected *)
From Coq Require Import Reals ZArith QArith Qcanon List Bool Arith Lia Lra Permutation.
From Verif Require Import CNum Base ScalarModel ScalarProofs GraphModel GateModel GraphSem GraphProofs GrowProofs InvProofs SumLemmas RuleLemmas CircSpec GateProofs GateDecomp CircGraphModel CircGraphProofs CircGraphFacts
  RulesModel GraphAlgProofs VerifyProofs ExtractMap ExtractFacts GraphAlgModel GraphAlgFacts ComposeFacts RunEx ZXFacts AlgUse TotalProofs TensorModel TensorNp TensorPos TensorStep TensorOps TensorUse CircTensorModel.
Import ListNotations.
Open Scope nat_scope.

Record J (n : nat) (X : list nat) (g : graph) : Prop := mkJ {
  j_wf : wfg g;
  j_vi : n <= gvindex g;
  j_r0 : forall v, In v (vertices g) -> v < n -> GraphModel.row g v = 0%Qc;
  j_rows : forall v, In v (vertices g) -> (0 <= GraphModel.row g v)%Qc;
  j_edge : forall u v, edge_type g u v <> None -> n <= u \/ n <= v;
  j_x : forall v, In v (vertices g) -> vty g v = XSP -> ~ In v X -> exists u, edge_type g v u <> None }.
(** the previous vertices are vertices made before *)
Definition K (g : graph) (m : mapper) : Prop := forall l v, dget l (mprev m) = Some v -> v < gvindex g.

Lemma add_vertex_row : forall t q r p g g' v, add_vertex t q r (Some p) g = (g', v) -> gvindex g' = S (gvindex g) /\ forall u, GraphModel.row g' u = if Nat.eqb u v then r else GraphModel.row g u.
Proof.
  intros t q r p g g' v H. unfold add_vertex in H. cbn [add_vertices fst seq fold_left] in H. injection H as H Hv.
  assert (RI : grindex g' = dset (gvindex g) r (grindex (fst (add_vertices 1 g)))) by (subst g'; destruct (qeqb p 0%Qc); reflexivity).
  split.
  - subst g'. destruct (qeqb p 0%Qc); cbn; lia.
  - intros u. unfold GraphModel.row. rewrite RI, dget_dset, Hv. destruct (Nat.eqb u v); reflexivity.
Qed.
Lemma crd_pos : forall r, (0 <= crd r)%Qc.
Proof. intros r. unfold crd, Qcz, Qcle. change (0 <= Qred (inject_Z (Z.of_nat r)))%Q. rewrite Qred_correct. unfold Qle. cbn. lia. Qed.
Lemma vertex_J : forall n X t q r p g g' v, J n X g -> (0 <= r)%Qc -> add_vertex t q r (Some p) g = (g', v) -> J n (v :: X) g' /\ n <= v /\ v = gvindex g /\ gvindex g' = S v /\ (forall u w, edge_type g' u w = edge_type g u w) /\
  (forall u, In u (vertices g) -> u <> v) /\ (forall u, edge_type g u v = None) /\ vty g' v = t /\ (forall u, u <> v -> vty g' u = vty g u) /\ In v (vertices g') /\ (t <> XSP -> J n X g').
Proof.
  intros n X t q r p g g' v HJ R H. destruct HJ as [W VI R0 RS ED XS]. destruct (add_vertex_spec _ _ _ _ _ _ _ W H) as (Ev & W' & V' & ET & _ & TY & _). destruct (add_vertex_row _ _ _ _ _ _ _ H) as [GI RW].
  assert (NI : forall u, In u (vertices g) -> u <> v) by (intros u I; apply (wf_fresh g W) in I; lia).
  assert (B : n <= v) by lia.
  assert (JJ : forall Y, (t = XSP -> In v Y) -> incl X Y -> J n Y g').
  { intros Y HY HI. constructor; auto; try lia.
    - intros u I L. rewrite RW. destruct (Nat.eqb_spec u v); [lia|]. rewrite V', in_app_iff in I. destruct I as [I|[I|[]]]; auto. congruence.
    - intros u I. rewrite RW. destruct (Nat.eqb_spec u v); auto. rewrite V', in_app_iff in I. destruct I as [I|[I|[]]]; auto. congruence.
    - intros u w. rewrite ET. auto.
    - intros u I T N. rewrite TY in T. destruct (Nat.eqb_spec u v) as [->|Nu]; [exfalso; auto|]. rewrite V', in_app_iff in I. destruct I as [I|[I|[]]]; [|congruence]. destruct (XS u I T) as [w E]; [intros Q; apply N; auto|].
      exists w. rewrite ET. auto. }
  split; [apply JJ; [left; auto|intros a Ha; right; auto]|]. do 2 (split; [auto|]). split; [congruence|]. do 2 (split; [auto|]). split.
  { intros u. destruct (edge_type g u v) as [e|] eqn:E; auto. apply edge_in_r in E; auto. destruct (NI v E eq_refl). }
  split; [rewrite TY, Nat.eqb_refl; auto|]. split; [intros u N; rewrite TY; destruct (Nat.eqb_spec u v); congruence|]. split; [rewrite V'; apply in_or_app; right; left; auto|].
  intros N. apply JJ; [congruence|apply incl_refl].
Qed.
Lemma frame_row : forall g g' v, same_frame g g' -> GraphModel.row g' v = GraphModel.row g v.
Proof. intros g g' v (_ & _ & _ & _ & _ & _ & E). unfold GraphModel.row. rewrite E. auto. Qed.
Lemma edge_J : forall n X Y s t et g g', J n X g -> s <> t -> n <= s \/ n <= t -> ((vty g s <> XSP /\ vty g t <> XSP /\ incl X Y) \/ (edge_type g s t = None /\ forall v, In v X -> v = s \/ v = t \/ In v Y)) ->
  add_edge s t et g = Ok g' -> J n Y g' /\ same_frame g g'.
Proof.
  intros n X Y s t et g g' HJ D NN C H. destruct HJ as [W VI R0 RS ED XS]. destruct (add_edge_spec s t et g g' W D H) as (W' & F & Is & It & ET & _). split; auto.
  assert (VV : vertices g' = vertices g) by apply F. constructor; auto.
  - destruct F as (_ & _ & _ & _ & -> & _). auto.
  - intros v. rewrite VV, (frame_row g g' v F). auto.
  - intros v. rewrite VV, (frame_row g g' v F). auto.
  - intros u v E. destruct (Nat.eq_dec u s) as [Q1|Q1], (Nat.eq_dec v t) as [Q2|Q2]; [rewrite Q1, Q2; tauto| | |]; (destruct (Nat.eq_dec u t) as [Q3|Q3], (Nat.eq_dec v s) as [Q4|Q4]; [rewrite Q3, Q4; tauto| | |]);
    apply ED; rewrite <- ET; auto; intros Q; injection Q; intros; congruence.
  - intros v I T N. rewrite VV in I. rewrite (same_frame_vty g g') in T by auto. destruct C as [(Ns & Nt & IX)|(EN & IX)].
    + destruct (XS v I T) as [u E]; [auto|]. exists u. rewrite ET; auto; intros Q; injection Q as -> ->; auto.
    + assert (EE := add_edge_new s t et g g' W D EN H). destruct (Nat.eq_dec v s) as [->|Ns]; [exists t; congruence|]. destruct (Nat.eq_dec v t) as [->|Nt]; [exists s; rewrite wf_sym by auto; congruence|].
      destruct (XS v I T) as [u E]; [intros Q; destruct (IX v Q) as [?|[?|?]]; auto|]. exists u. rewrite ET; auto; congruence.
Qed.
Lemma K_frame : forall g g' m, same_frame g g' -> K g m -> K g' m.
Proof. intros g g' m (_ & _ & _ & _ & E & _) H l v D. rewrite E. eauto. Qed.
Lemma K_set : forall g m l v, K g m -> v < gvindex g -> K g (set_prev_vertex l v m).
Proof. intros g m l v H B l' v' D. unfold set_prev_vertex in D. cbn in D. rewrite dget_dset in D. destruct (Nat.eqb l' l); [injection D as <-; auto|eauto]. Qed.
Lemma K_more : forall g g' m, gvindex g <= gvindex g' -> K g m -> K g' m.
Proof. intros g g' m L H l v D. specialize (H l v D). lia. Qed.

Lemma node_J : forall n t l r p et g m g' m' v, J n [] g -> K g m -> graph_add_node t l r p et (g, m) = Ok ((g', m'), v) ->
  J n [] g' /\ K g' m' /\ n <= v /\ v = gvindex g /\ gvindex g' = S v /\ (forall k, k <> l -> dget k (mprev m') = dget k (mprev m)) /\ vty g' v = t /\ (forall u, u <> v -> vty g' u = vty g u) /\ In v (vertices g') /\
  (forall u w, u <> v -> w <> v -> edge_type g' u w = edge_type g u w) /\ (forall u, edge_type g' v u <> None -> dget l (mprev m) = Some u).
Proof.
  intros n t l r p et g m g' m' v HJ HK H. unfold graph_add_node in H. inv_bind H. destruct (add_vertex t (crd a) (crd r) (Some p) g) as [g1 v1] eqn:A. inv_bind H. inv_bind H. injection H as <- <- <-.
  rename a0 into u, a1 into g2. destruct (vertex_J n [] _ _ _ _ _ _ _ HJ (crd_pos r) A) as (J1 & B & EV & GI & ET & NI & EN & TV & TO & IV & _).
  assert (DU : dget l (mprev m) = Some u) by (unfold prev_vertex, of_opt in E0; destruct (dget l (mprev m)); [injection E0 as ->; auto|discriminate]).
  assert (LU := HK l u DU). assert (D : u <> v1) by lia.
  assert (EN1 : edge_type g1 u v1 = None) by (rewrite ET; auto).
  assert (HC : edge_type g1 u v1 = None /\ forall w, In w [v1] -> w = u \/ w = v1 \/ In w []) by (split; auto; intros w [Q|[]]; auto).
  destruct (edge_J n [v1] [] u v1 et g1 g2 J1 D (or_intror B) (or_intror HC) E1) as [J2 F].
  destruct (add_edge_spec u v1 et g1 g2 (j_wf _ _ _ J1) D E1) as (_ & _ & _ & _ & ET2 & _).
  assert (GI2 : gvindex g2 = S v1) by (destruct F as (_ & _ & _ & _ & -> & _); auto).
  split; auto. split. { apply K_set; [|lia]. apply K_more with g; auto. lia. }
  do 3 (split; [auto|]). split. { intros k N. unfold set_prev_vertex. cbn. apply dget_dset_neq; auto. }
  split; [rewrite (same_frame_vty g1 g2); auto|]. split; [intros w N; rewrite (same_frame_vty g1 g2); auto|]. split; [destruct F as [-> _]; auto|]. split.
  - intros w x N1 N2. rewrite ET2, ET; auto; congruence.
  - intros w N. destruct (Nat.eq_dec w u) as [->|Nw]; auto. exfalso. apply N. rewrite ET2, ET; [|congruence|congruence]. rewrite wf_sym by apply HJ. auto.
Qed.
Lemma phase_J : forall n ty t p g m g' m', J n [] g -> K g m -> phase_to_graph ty t p (g, m) = Ok (g', m') -> J n [] g' /\ K g' m'.
Proof.
  intros n ty t p g m g' m' HJ HK H. unfold phase_to_graph in H. inv_bind H. inv_bind H. destruct a0 as [[g1 m1] v]. inv_bind H. injection H as <- <-.
  destruct (node_J _ _ _ _ _ _ _ _ _ _ _ HJ HK E0) as (A & B & _). split; auto. unfold advance_next_row in E1. inv_bind E1. injection E1 as <-. exact B.
Qed.
Lemma had_J : forall n t g m g' m', J n [] g -> K g m -> had_to_graph t (g, m) = Ok (g', m') -> J n [] g' /\ K g' m'.
Proof.
  intros n t g m g' m' HJ HK H. assert (X : exists r, graph_add_node ZSP t r 0%Qc HADAMARD (g, m) = Ok ((g', set_prev_vertex t (gvindex g) m), gvindex g) /\ mprev m' = mprev (set_prev_vertex t (gvindex g) m)).
  { unfold had_to_graph in H. inv_bind H. inv_bind H. exists a0. unfold graph_add_node. rewrite E. cbn [bind]. destruct (add_vertex ZSP (crd a) (crd a0) (Some 0%Qc) g) as [g1 v] eqn:A.
    assert (v = gvindex g) by (unfold add_vertex in A; congruence). subst v. inv_bind H. rewrite E1. cbn [bind]. inv_bind H. rewrite E2. cbn [bind]. inv_bind H. injection H as <- <-.
    unfold advance_next_row in E3. inv_bind E3. injection E3 as <-. split; reflexivity. }
  destruct X as [r [X Y]]. destruct (node_J _ _ _ _ _ _ _ _ _ _ _ HJ HK X) as (A & B & _). split; auto. intros l v D. rewrite Y in D. exact (B l v D).
Qed.
Lemma scalar_J : forall n X f g, J n X g -> J n X (on_scalar f g).
Proof. intros n X f g [W VI R0 RS ED XS]. constructor; auto. destruct W; constructor; auto. Qed.
Lemma two_J : forall n tt tc et c t g m g' m', c <> t -> J n [] g -> K g m -> two_to_graph tt tc et c t (g, m) = Ok (g', m') -> J n [] g' /\ K g' m'.
Proof.
  intros n tt tc et c t g m g' m' NE HJ HK H. unfold two_to_graph in H. cbv zeta in H. inv_bind H. inv_bind H. inv_bind H. destruct a1 as [[g1 m1] v1]. cbn [fst snd] in H. inv_bind H. destruct a1 as [[g2 m2] v2]. cbn [fst snd] in H. inv_bind H.
  injection H as <- <-. rename a1 into g3. destruct (node_J _ _ _ _ _ _ _ _ _ _ _ HJ HK E1) as (J1 & K1 & B1 & V1 & G1 & D1 & _).
  destruct (node_J _ _ _ _ _ _ _ _ _ _ _ J1 K1 E2) as (J2 & K2 & B2 & V2 & G2 & D2 & _ & _ & _ & _ & ED).
  assert (D : v1 <> v2) by lia.
  assert (N : edge_type g2 v1 v2 = None).
  { destruct (edge_type g2 v1 v2) eqn:X; auto. exfalso. assert (Q : dget c (mprev m1) = Some v1) by (apply ED; rewrite wf_sym by apply J2; congruence). rewrite D1 in Q by auto. specialize (HK c v1 Q). lia. }
  assert (HC : edge_type g2 v1 v2 = None /\ forall w, In w [] -> w = v1 \/ w = v2 \/ In w []) by (split; auto; intros w []).
  destruct (edge_J n [] [] v1 v2 et g2 g3 J2 D (or_introl B1) (or_intror HC) E3) as [J3 F].
  split; [apply scalar_J; auto|]. apply (K_frame g2 g3 m2) in K2; auto.
Qed.
Lemma phase_set_J : forall n v p g, J n [] g -> In v (vertices g) -> J n [] (set_phase v p g).
Proof. intros n v p g HJ I. assert (W' := set_phase_wfg g v p (j_wf _ _ _ HJ) I). destruct HJ as [W VI R0 RS ED XS]. constructor; auto. Qed.
(** edges between vertices that are not X *)
Lemma zedge_J : forall n s t et g g', J n [] g -> s <> t -> n <= s -> vty g s = ZSP -> vty g t = ZSP -> add_edge s t et g = Ok g' -> J n [] g' /\ same_frame g g'.
Proof. intros n s t et g g' HJ D B T1 T2 H. apply (edge_J n [] [] s t et g g'); auto. left. rewrite T1, T2. split; [discriminate|]. split; [discriminate|apply incl_refl]. Qed.
Lemma zvert_J : forall n q r g g' v, J n [] g -> (0 <= r)%Qc -> add_vertex ZSP q r (Some 0%Qc) g = (g', v) -> J n [] g' /\ n <= v /\ v = gvindex g /\ gvindex g' = S v /\ vty g' v = ZSP /\ (forall u, u <> v -> vty g' u = vty g u) /\
  In v (vertices g') /\ incl (vertices g) (vertices g').
Proof.
  intros n q r g g' v HJ R H. destruct (vertex_J n [] _ _ _ _ _ _ _ HJ R H) as (_ & B & EV & GI & _ & _ & _ & TV & TO & IV & JJ). split; [apply JJ; discriminate|]. do 6 (split; [auto|]).
  destruct (add_vertex_spec _ _ _ _ _ _ _ (j_wf _ _ _ HJ) H) as (_ & _ & -> & _). intros a Ha. apply in_or_app; auto.
Qed.
Lemma frame_vi : forall g g', same_frame g g' -> gvindex g' = gvindex g.
Proof. intros g g' (_ & _ & _ & _ & E & _). auto. Qed.
Lemma frame_vs : forall g g', same_frame g g' -> vertices g' = vertices g.
Proof. intros g g' (E & _). auto. Qed.
Lemma fsim_J : forall n c t phi g m g' m', c <> t -> J n [] g -> K g m -> fsim_to_graph c t phi (g, m) = Ok (g', m') -> J n [] g' /\ K g' m'.
Proof.
  intros n c t phi g m g' m' NE HJ HK H. unfold fsim_to_graph in H. cbv zeta in H. inv_bind H. inv_bind H. inv_bind H. destruct a1 as [[g1 m1] c0]. cbn [fst snd] in H. inv_bind H. destruct a1 as [[g2 m2] t0].
  destruct (node_J _ _ _ _ _ _ _ _ _ _ _ HJ HK E1) as (J1 & K1 & B1 & V1 & G1 & _ & T1 & _ & _ & _ & _).
  destruct (node_J _ _ _ _ _ _ _ _ _ _ _ J1 K1 E2) as (J2 & K2 & B2 & V2 & G2 & _ & T2 & O2 & _ & _ & _).
  destruct (add_vertex ZSP (crd c) _ _ g2) as [g3 cv] eqn:A3. destruct (zvert_J n _ _ _ _ _ J2 (crd_pos _) A3) as (J3 & B3 & V3 & G3 & T3 & O3 & I3 & _).
  destruct (add_vertex ZSP (crd t) _ _ g3) as [g4 tv] eqn:A4. destruct (zvert_J n _ _ _ _ _ J3 (crd_pos _) A4) as (J4 & B4 & V4 & G4 & T4 & O4 & I4 & S4).
  inv_bind H. rename a1 into g5. inv_bind H. rename a1 into g6.
  assert (TC0 : vty g4 c0 = ZSP) by (rewrite O4, O3, O2 by lia; auto). assert (TT0 : vty g4 t0 = ZSP) by (rewrite O4, O3 by lia; auto). assert (TCV : vty g4 cv = ZSP) by (rewrite O4 by lia; auto).
  destruct (zedge_J n c0 tv SIMPLE g4 g5 J4 ltac:(lia) B1 TC0 T4 E3) as [J5 F5].
  destruct (zedge_J n t0 cv SIMPLE g5 g6 J5 ltac:(lia) B2 ltac:(rewrite (same_frame_vty g4 g5); auto) ltac:(rewrite (same_frame_vty g4 g5); auto) E4) as [J6 F6].
  assert (F46 := same_frame_trans _ _ _ F5 F6). clear F5 F6 E3 E4.
  match type of H with context [add_vertex ZSP ?q ?r ?p g6] => destruct (add_vertex ZSP q r p g6) as [g7 p0] eqn:A7 end. destruct (zvert_J n _ _ _ _ _ J6 (crd_pos _) A7) as (J7 & B7 & V7 & G7 & T7 & O7 & I7 & S7).
  match type of H with context [add_vertex ZSP ?q ?r ?p g7] => destruct (add_vertex ZSP q r p g7) as [g8 p1] eqn:A8 end. destruct (zvert_J n _ _ _ _ _ J7 (crd_pos _) A8) as (J8 & B8 & V8 & G8 & T8 & O8 & I8 & S8).
  assert (VI6 := frame_vi _ _ F46). assert (VS6 := frame_vs _ _ F46).
  assert (ICV : In cv (vertices g8)) by (apply S8, S7; rewrite VS6; apply S4; auto). assert (ITV : In tv (vertices g8)) by (apply S8, S7; rewrite VS6; auto).
  match type of H with context [add_edge cv p0 HADAMARD ?x] => set (g9 := x) in * end.
  assert (J9 : J n [] g9) by (unfold g9; repeat apply phase_set_J; auto). assert (F89 : same_frame g8 g9) by (unfold same_frame, g9; cbn; tauto).
  assert (Tc : vty g8 cv = ZSP) by (rewrite O8, O7, (same_frame_vty g4 g6) by (auto; lia); auto). assert (Tt : vty g8 tv = ZSP) by (rewrite O8, O7, (same_frame_vty g4 g6) by (auto; lia); auto).
  assert (Tp : vty g8 p0 = ZSP) by (rewrite O8 by lia; auto).
  clearbody g9. inv_bind H. rename a1 into g10. inv_bind H. rename a1 into g11. inv_bind H. rename a1 into g12. injection H as <- <-.
  destruct (zedge_J n cv p0 HADAMARD g9 g10 J9 ltac:(lia) B3 ltac:(rewrite (same_frame_vty g8 g9); auto) ltac:(rewrite (same_frame_vty g8 g9); auto) E3) as [J10 F10]. assert (F8a := same_frame_trans _ _ _ F89 F10).
  destruct (zedge_J n tv p0 HADAMARD g10 g11 J10 ltac:(lia) B4 ltac:(rewrite (same_frame_vty g8 g10); auto) ltac:(rewrite (same_frame_vty g8 g10); auto) E4) as [J11 F11]. assert (F8b := same_frame_trans _ _ _ F8a F11).
  destruct (zedge_J n p0 p1 HADAMARD g11 g12 J11 ltac:(lia) B7 ltac:(rewrite (same_frame_vty g8 g11); auto) ltac:(rewrite (same_frame_vty g8 g11); auto) E5) as [J12 F12]. assert (F8c := same_frame_trans _ _ _ F8b F12).
  split; [apply scalar_J; auto|]. assert (VI := frame_vi _ _ F8c).
  apply (K_more g12); [reflexivity|]. intros l v D. change (dget l (mprev (set_prev_vertex t tv (set_prev_vertex c cv m2))) = Some v) in D.
  revert l v D. change (K g12 (set_prev_vertex t tv (set_prev_vertex c cv m2))). apply K_set; [apply K_set|]; try lia. apply K_more with g2; auto. lia.
Qed.
Lemma basic_J : forall n k g m g' m', basic k -> gate_in n k -> J n [] g -> K g m -> gate_to_graph k (g, m) = Ok (g', m') -> J n [] g' /\ K g' m'.
Proof.
  intros n k g m g' m' BK GI HJ HK H. destruct k; try destruct BK; cbn [gate_to_graph prim_to_graph] in H.
  all: try (eapply phase_J; eassumption); try (eapply had_J; eassumption).
  all: assert (NE := gate2 n _ _ _ GI eq_refl); destruct NE as (_ & _ & NE).
  all: try (eapply two_J; eassumption); try (eapply fsim_J; eassumption).
Qed.
Lemma gates_J : forall compress n gs g m g' m', (forall k, In k gs -> basic k /\ gate_in n k) -> J n [] g -> K g m -> foldM (add_one_gate compress) gs (g, m) = Ok (g', m') -> J n [] g' /\ K g' m'.
Proof.
  intros cr n. induction gs as [|k gs IH]; intros g m g' m' B HJ HK H; cbn [foldM] in H; [injection H as <- <-; auto|]. inv_bind H. destruct a as [g1 m1]. destruct (B k (or_introl eq_refl)) as [B1 B2].
  unfold add_one_gate in E. inv_bind E. destruct a as [g2 m2]. assert (X : J n [] g2 /\ K g2 m2) by (destruct cr; unfold level_rows in E0; cbn [fst snd] in E0; (eapply basic_J; [exact B1|exact B2|exact HJ| |exact E0]; exact HK)).
  destruct X as [X1 X2]. eapply IH; [intros; apply B; right; auto| | |eassumption]; destruct cr; unfold level_rows in E; cbn [fst snd] in E; injection E as <- <-; auto.
Qed.
Lemma outs_J : forall n r m ls g vs g' vs', J n [] g -> K g m -> foldM (add_output r m) ls (g, vs) = Ok (g', vs') -> J n [] g'.
Proof.
  intros n r m. induction ls as [|l ls IH]; intros g vs g' vs' HJ HK H; cbn [foldM] in H; [injection H as <- <-; auto|]. inv_bind H. destruct a as [g1 ws].
  unfold add_output in E. inv_bind E. destruct (add_vertex BOUNDARY (crd a) (crd r) (Some 0%Qc) g) as [g2 v] eqn:A. inv_bind E. inv_bind E. injection E as <- <-. rename a0 into u, a1 into g3.
  assert (X : graph_add_node BOUNDARY l r 0%Qc SIMPLE (g, m) = Ok ((g3, set_prev_vertex l v m), v)) by (unfold graph_add_node; rewrite E0; cbn [bind]; rewrite A, E1; cbn [bind]; rewrite E2; reflexivity).
  destruct (node_J _ _ _ _ _ _ _ _ _ _ _ HJ HK X) as (J1 & _ & _ & EV & GV & _). eapply IH; [exact J1| |eassumption]. apply K_more with g; auto. lia.
Qed.
Lemma ins_J : forall n, exists g m, fold_left add_input (seq 0 n) ((empty_graph, mapper_init), []) = ((g, m), seq 0 n) /\ wfg g /\ vertices g = seq 0 n /\ gvindex g = n /\ K g m /\
  (forall v, In v (seq 0 n) -> GraphModel.row g v = 0%Qc /\ vty g v = BOUNDARY) /\ forall u v, edge_type g u v = None.
Proof.
  induction n as [|n (g & m & E & W & V & GI & HK & R & ED)].
  - exists empty_graph, mapper_init. cbn. split; auto. split; [apply empty_wf|]. do 2 (split; [auto|]). split; [intros l v D; discriminate|]. split; [intros v []|auto].
  - rewrite seq_S, fold_left_app, E. cbn [fold_left]. unfold add_input. rewrite Nat.add_0_l. destruct (add_vertex BOUNDARY (crd n) (crd 0) (Some 0%Qc) g) as [g1 v] eqn:A.
    destruct (add_vertex_spec _ _ _ _ _ _ _ W A) as (EV & W' & V' & ET & _ & TY & _). destruct (add_vertex_row _ _ _ _ _ _ _ A) as [GI' RW]. assert (EN : v = n) by congruence. rewrite EN in *. clear EN v.
    eexists. eexists. split; [reflexivity|]. do 2 (split; [try congruence; auto|]). split; [congruence|]. split.
    { intros l v D. change (dget l (mprev (set_prev_vertex l n m)) = Some v) in D || cbn in D. revert D. cbn. rewrite dget_dset. destruct (Nat.eqb l n); intros D; [injection D as <-; lia|]. specialize (HK l v D). lia. }
    split; [|intros; rewrite ET; auto]. intros u I. rewrite RW, TY. destruct (Nat.eqb_spec u n) as [->|N]; [split; auto; apply Qc_is_canon; reflexivity|]. apply R. rewrite in_app_iff in I. destruct I as [I|[I|[]]]; auto. congruence.
Qed.
Lemma circuit_layout : forall so compress c g, (forall k, In k (cgates c) -> basic k /\ gate_in (cqubits c) k) -> circuit_to_graph so compress c = Ok g -> layout g /\ no_iso_x g /\ ginputs g = seq 0 (cqubits c).
Proof.
  intros so cr [n gs] g B H. unfold circuit_to_graph in H. cbn [cqubits cgates] in *. destruct (ins_J n) as (g0 & m0 & E0 & W & V & GI & HK & R & ED). rewrite E0 in H. inv_bind H. destruct a as [g1 m1]. inv_bind H. destruct a as [g2 vs]. injection H as <-. cbn [fst snd].
  assert (J0 : J n [] g0).
  { constructor; auto; try lia.
    - intros v I _. rewrite V in I. apply R; auto.
    - intros v I. rewrite V in I. destruct (R v I) as [-> _]. apply Qcle_refl.
    - intros u v D. destruct D; auto.
    - intros v I T. rewrite V in I. destruct (R v I). congruence. }
  destruct (gates_J cr n gs g0 m0 g1 m1 B J0 HK E) as [J1 K1]. assert (J2 := outs_J _ _ _ _ _ _ _ _ J1 K1 E1). destruct J2 as [W2 VI R0 RS ED2 XS]. split; [|split; [|reflexivity]].
  - intros i w I D. change (In i (seq 0 n)) in I. change (edge_type g2 i w <> None) in D. apply in_seq in I. assert (L : n <= w) by (destruct (ED2 i w D); auto; lia). split; [|change (~ In w (seq 0 n)); rewrite in_seq; lia].
    unfold before. change (GraphModel.row (set_outputs vs (set_inputs (seq 0 n) g2))) with (GraphModel.row g2).
    assert (Ii : In i (vertices g2)) by (destruct (edge_type g2 i w) eqn:X; [eapply edge_in_l; eauto|congruence]). assert (Iw : In w (vertices g2)) by (destruct (edge_type g2 i w) eqn:X; [eapply edge_in_r; eauto|congruence]).
    rewrite (R0 i Ii) by lia. assert (P := RS w Iw). destruct (Qcle_lt_or_eq _ _ P) as [Q|Q]; [apply orb_true_iff; left; apply qltb_lt; auto|]. apply orb_true_iff. right. apply andb_true_iff. split; [apply qeqb_eq; auto|]. apply Nat.ltb_lt. lia.
  - intros v I T E2. destruct (XS v I T (fun f => f)) as [u Q]. apply neighbors_spec in Q. change (neighbors g2 v = []) in E2. rewrite E2 in Q. destruct Q.
Qed.


(** ** Circuit.to_tensor *)
Lemma basic_self : forall g, basic g -> to_basic_gates g = Ok [g].
Proof. intros [] H; try destruct H; reflexivity. Qed.
Lemma c_basic_self : forall c, Forall basic (cgates c) -> c_basic c = Ok c.
Proof.
  intros [n gs] H. unfold c_basic. cbn [cgates cqubits] in *. assert (E : mapM to_basic_gates gs = Ok (map (fun g => [g]) gs)).
  { induction H as [|g gs B _ IH]; auto. cbn [mapM map]. rewrite basic_self by auto. cbn [bind]. rewrite IH. reflexivity. }
  rewrite E. cbn [bind]. do 2 f_equal. clear. induction gs; cbn; congruence.
Qed.
Lemma cden_left : forall n l, (forall g, In g l -> gate_in n g) -> exists l' k, k <> C0 /\ forall s x, cden l' (cden l s) x = (k * s x)%C.
Proof.
  intros n l G. destruct (cden_right n l G) as (l' & k & K0 & G' & H). destruct (cden_right n l' G') as (l2 & k2 & K2 & _ & H2). exists l', k. split; auto. intros s x.
  assert (E : cden l' (fun y => k2 * cden l s y)%C = cden l' (fun y => k * cden l2 s y)%C).
  { f_equal. apply state_ext. intros y. transitivity (cden l (cden l' (cden l2 s)) y); [|apply H]. replace (cden l' (cden l2 s)) with (fun z => k2 * s z)%C by (apply state_ext; intros z; rewrite H2; auto). rewrite cden_scale. auto. }
  rewrite !cden_scale in E. assert (E' : (k2 * cden l' (cden l s) x = k * cden l' (cden l2 s) x)%C) by exact (f_equal (fun f => f x) E). rewrite H2 in E'.
  assert (Q : (k2 * (cden l' (cden l s) x - k * s x) = C0)%C) by (transitivity (k2 * cden l' (cden l s) x - k2 * (k * s x))%C; [ring|rewrite E'; ring]).
  destruct (Cmult_integral _ _ Q) as [Z|Z]; [destruct (K2 Z)|]. transitivity (cden l' (cden l s) x - k * s x + k * s x)%C; [ring|rewrite Z; ring].
Qed.
Lemma circuit_some : forall n l i, (forall g, In g l -> gate_in n g) -> ~ forall y, cden l (basis n i) y = C0.
Proof.
  intros n l i G Z. destruct (cden_left n l G) as (l' & k & K0 & H). specialize (H (basis n i) i). replace (cden l (basis n i)) with (fun _ : nat -> bool => C0) in H by (apply state_ext; intros y; rewrite Z; auto).
  rewrite cden_zero' in H. assert (B : basis n i i = C1). { unfold basis. clear. induction (seq 0 n) as [|a l IH]; cbn [cprod]; auto. rewrite IH. unfold dlt. rewrite Bool.eqb_reflx. ring. }
  rewrite B in H. apply K0. transitivity (k * C1)%C; [ring|]. auto.
Qed.
(** the entry of the circuit's unitary between basis states *)
Definition centry (c : circuit) (i y : nat -> bool) : C := cden (cgates c) (basis (cqubits c) i) y.
(** index of an entry: the j-th output bit belongs to the j-th label *)
Definition cix (so : list nat -> list nat) (n : nat) (y i : nat -> bool) : list bool := map (fun j => y (nth j (so (seq 0 n)) 0)) (seq 0 n) ++ map i (seq 0 n).
Lemma basis_ext : forall n i i', (forall q, q < n -> i q = i' q) -> basis n i = basis n i'.
Proof. intros n i i' H. apply state_ext. intros x. unfold basis. apply cprod_ext. intros q I. apply in_seq in I. rewrite H; auto. lia. Qed.
Definition basicb (g : gate) : bool := match g with GZ _ _ _ | GX _ _ _ | GHAD _ | GCNOT _ _ | GCZ _ _ | GFSim _ _ _ _ => true | _ => false end.
Lemma basicb_ok : forall gs, forallb basicb gs = true <-> Forall basic gs.
Proof.
  intros gs. rewrite forallb_forall, Forall_forall. split; intros H g Hg; specialize (H g Hg); destruct g; try exact I; try reflexivity; try discriminate; try destruct H.
Qed.
Lemma c_basic_phase : forall c, circ_ok c -> exists c' z, c_basic c = Ok c' /\ cqubits c' = cqubits c /\ circ_basic c' /\ unitc z /\ (Forall basic (cgates c) -> z = C1) /\ forall s x, cden (cgates c') s x = (z * cden (cgates c) s x)%C.
Proof.
  intros c OK. destruct (forallb basicb (cgates c)) eqn:F.
  - apply basicb_ok in F. exists c, C1. split; [apply c_basic_self; auto|]. split; auto. split. { intros g I. rewrite Forall_forall in F. split; auto. } split; [apply unit_1|]. split; auto. intros. ring.
  - destruct (c_basic_ok c OK) as (c' & z & E & N & B & U & D). exists c', z. do 4 (split; [auto|]). split; auto. intros H. apply basicb_ok in H. congruence.
Qed.
Lemma c_graph : forall so c, is_perm_oracle so -> circ_ok c -> exists g z, to_graph so false true c = Ok g /\ unitc z /\ (Forall basic (cgates c) -> z = C1) /\ zinv g /\ io_ok g /\ no_iso_x g /\ layout g /\
  length (ginputs g) = cqubits c /\ length (goutputs g) = cqubits c /\ forall i y, val g i (fun j => y (nth j (so (seq 0 (cqubits c))) 0)) = (z * centry c i y)%C.
Proof.
  intros so c SO OK. destruct (c_basic_phase c OK) as (c' & z & E & N & B & U & ZB & D). unfold to_graph. rewrite E. cbn [bind].
  destruct (circuit_graph_ok so true c' SO) as (g & z' & E' & U' & P' & Z & L1 & L2 & ND & H).
  { intros k Hk. destruct (B k Hk) as [B1 B2]. split; auto. destruct k; try exact I; destruct B1. }
  destruct (circuit_layout so true c' g B E') as (LY & NX & _).
  assert (BP : Forall prim (cgates c')) by (apply Forall_forall; intros k Hk; left; apply B; auto). specialize (P' BP). subst z'.
  rewrite N in *. exists g, z. do 9 (split; [auto|]). intros i y. unfold val. rewrite (H _ y).
  - rewrite D. unfold centry. rewrite (basis_ext (cqubits c) (fun q => bits (ginputs g) (goutputs g) i (fun j => y (nth j (so (seq 0 (cqubits c))) 0)) (nth q (ginputs g) 0)) i); [ring|]. intros q Q. apply bits_in; auto. lia.
  - intros j Hj. rewrite bits_out; auto. lia.
Qed.
Lemma cix_at : forall so g n y i, length (ginputs g) = n -> length (goutputs g) = n -> cix so n y i = at_bits g (fun j => y (nth j (so (seq 0 n)) 0)) i.
Proof. intros so g n y i L1 L2. unfold cix, at_bits. rewrite L1, L2. auto. Qed.
Theorem c_tensor_ok : forall so up c, is_perm_oracle so -> circ_ok c -> exists T z, c_to_tensor so up true c = Ok T /\ unitc z /\ (Forall basic (cgates c) -> z = C1) /\
  tshape T = repeat 2 (cqubits c + cqubits c) /\ forall i y, tent T (cix so (cqubits c) y i) = (z * centry c i y)%C.
Proof.
  intros so up c SO OK. destruct (c_graph so c SO OK) as (g & z & E & U & ZB & Z & IO & NX & LY & L1 & L2 & H). destruct (tensorfy_val g up Z IO NX LY) as (T & ET & S & V).
  exists T, z. unfold c_to_tensor. rewrite E. cbn [bind]. do 3 (split; [auto|]). split; [rewrite S, L1, L2; auto|]. intros i y. rewrite (cix_at so g), V; auto.
Qed.
Theorem c_matrix_ok : forall so up c, is_perm_oracle so -> circ_ok c -> exists M z, c_to_matrix so up true c = Ok M /\ unitc z /\ (Forall basic (cgates c) -> z = C1) /\
  length M = 2 ^ cqubits c /\ (forall r, In r M -> length r = 2 ^ cqubits c) /\
  forall i y, nth (bval (map i (seq 0 (cqubits c)))) (nth (bval (map (fun j => y (nth j (so (seq 0 (cqubits c))) 0)) (seq 0 (cqubits c)))) M []) C0 = (z * centry c i y)%C.
Proof.
  intros so up c SO OK. destruct (c_graph so c SO OK) as (g & z & E & U & ZB & Z & IO & NX & LY & L1 & L2 & H). destruct (tensorfy_val g up Z IO NX LY) as (T & ET & S & V).
  exists (tensor_to_matrix T (length (ginputs g)) (length (goutputs g))), z. unfold c_to_matrix. rewrite E. cbn [bind]. rewrite ET. cbn [bind]. do 3 (split; [auto|]).
  destruct (matrix_size T (length (ginputs g)) (length (goutputs g))) as [M1 M2]. split; [congruence|]. split; [intros r I; rewrite (M2 r I); congruence|]. intros i y.
  rewrite matrix_entry by (rewrite map_length, seq_length; auto). rewrite <- H, <- V. unfold at_bits. rewrite L1, L2. auto.
Qed.
Lemma cix_all : forall so n ix, is_perm_oracle so -> length ix = n + n -> exists y i, ix = cix so n y i.
Proof.
  intros so n ix SO L. set (R := so (seq 0 n)). assert (PR : Permutation R (seq 0 n)) by apply SO. assert (LR : length R = n) by (rewrite (Permutation_length PR), seq_length; auto).
  assert (NR : NoDup R) by (eapply Permutation_NoDup; [apply Permutation_sym; exact PR|apply seq_NoDup]).
  exists (fun q => match pos q R with Some j => nth j ix false | None => false end), (fun j => nth (n + j) ix false). unfold cix. fold R.
  apply nth_ext with (d := false) (d' := false); [rewrite app_length, !map_length, !seq_length; auto|]. intros k Hk. destruct (lt_dec k n) as [A|A].
  - rewrite app_nth1 by (rewrite map_length, seq_length; auto). rewrite nth_ms by auto. rewrite pos_nth by (auto; lia). auto.
  - rewrite app_nth2 by (rewrite map_length, seq_length; lia). rewrite map_length, seq_length, nth_ms by lia. f_equal. lia.
Qed.
Lemma cix_len : forall so n y i, length (cix so n y i) = n + n.
Proof. intros. unfold cix. rewrite app_length, !map_length, !seq_length. auto. Qed.
Lemma unit_nz : forall z, unitc z -> z <> C0.
Proof. intros z U ->. unfold unitc in U. apply C1_neq_C0. rewrite <- U. ring. Qed.
(** comparing circuits with scalars *)
Theorem c_compare_scalar : forall so up1 up2 c1 c2, is_perm_oracle so -> circ_ok c1 -> circ_ok c2 -> cqubits c1 = cqubits c2 ->
  exists b z1 z2, compare_circuits so up1 up2 true c1 c2 = Ok b /\ unitc z1 /\ unitc z2 /\ (Forall basic (cgates c1) -> z1 = C1) /\ (Forall basic (cgates c2) -> z2 = C1) /\
    (b = true <-> forall i y, (z1 * centry c1 i y = z2 * centry c2 i y)%C).
Proof.
  intros so up1 up2 c1 c2 SO O1 O2 EQ. destruct (c_tensor_ok so up1 c1 SO O1) as (T1 & z1 & E1 & U1 & B1 & S1 & V1), (c_tensor_ok so up2 c2 SO O2) as (T2 & z2 & E2 & U2 & B2 & S2 & V2).
  set (n := cqubits c1) in *. assert (R1 : rank T1 = n + n) by (unfold rank; rewrite S1, repeat_length; auto). assert (R2 : rank T2 = n + n) by (unfold rank; rewrite S2, repeat_length; lia).
  destruct (compare_scalar T1 T2 (n + n) R1 R2) as (b & E & H). exists b, z1, z2. unfold compare_circuits. rewrite E1, E2. cbn [bind]. do 5 (split; [auto|]). rewrite H. unfold teq. rewrite <- EQ in V2. split.
  - intros Q i y. rewrite <- V1, <- V2. apply Q, cix_len.
  - intros Q ix L. destruct (cix_all so n ix SO L) as (y & i & ->). rewrite V1, V2. auto.
Qed.
(** comparing circuits, the default *)
Theorem c_compare_ok : forall so up1 up2 c1 c2, is_perm_oracle so -> circ_ok c1 -> circ_ok c2 -> cqubits c1 = cqubits c2 ->
  exists b, compare_circuits so up1 up2 false c1 c2 = Ok b /\ (b = true <-> exists z, z <> C0 /\ forall i y, centry c1 i y = (z * centry c2 i y)%C).
Proof.
  intros so up1 up2 c1 c2 SO O1 O2 EQ.
  assert (X : forall up c, circ_ok c -> exists T a, c_to_tensor so up false c = Ok T /\ a <> C0 /\ rank T = cqubits c + cqubits c /\ forall i y, tent T (cix so (cqubits c) y i) = (a * centry c i y)%C).
  { clear c1 c2 O1 O2 EQ. intros up c OK. destruct (c_graph so c SO OK) as (g & z & E & U & ZB & Z & IO & NX & LY & L1 & L2 & H). destruct (tensorfy_unscaled g up Z IO NX LY) as (T & q & ET & S & Q & V).
    assert (SN : to_number (gscalar g) <> C0).
    { intros Z0. apply (circuit_some (cqubits c) (cgates c) (fun _ => false) OK). intros y. assert (W := V (fun _ => false) (fun j => y (nth j (so (seq 0 (cqubits c))) 0))). rewrite Z0, H in W.
      assert (W' : (RtoC q * (z * centry c (fun _ => false) y))%C = C0) by (rewrite <- W; ring). apply Cmult_integral in W'. destruct W' as [W'|W']; [injection W'; lra|]. apply Cmult_integral in W'. destruct W' as [W'|W']; [destruct (unit_nz z U W')|exact W']. }
    exists T, (/ to_number (gscalar g) * (RtoC q * z))%C. unfold c_to_tensor. rewrite E. cbn [bind]. split; auto. split.
    { apply Cmult_neq0; [intros I0; apply C1_neq_C0; transitivity (/ to_number (gscalar g) * to_number (gscalar g))%C; [field; auto|rewrite I0; ring]|]. apply Cmult_neq0; [intros W'; injection W'; lra|apply unit_nz; auto]. }
    split; [unfold rank; rewrite S, repeat_length; lia|]. intros i y. rewrite (cix_at so g) by auto.
    transitivity (/ to_number (gscalar g) * (to_number (gscalar g) * tent T (at_bits g (fun j => y (nth j (so (seq 0 (cqubits c))) 0)) i)))%C; [field; auto|]. rewrite V, H. ring. }
  destruct (X up1 c1 O1) as (T1 & a1 & E1 & N1 & R1 & V1), (X up2 c2 O2) as (T2 & a2 & E2 & N2 & R2 & V2). clear X. rewrite <- EQ in R2, V2. set (n := cqubits c1) in *.
  unfold compare_circuits. rewrite E1, E2. cbn [bind].
  assert (NZ1 : ~ tzero (n + n) T1).
  { intros Z. apply (circuit_some (cqubits c1) (cgates c1) (fun _ => false) O1). intros y. assert (W := Z _ (cix_len so n y (fun _ => false))). rewrite V1 in W. apply Cmult_integral in W. destruct W as [W|W]; [destruct (N1 W)|exact W]. }
  destruct (compare_ok T1 T2 (n + n) R1 R2) as [[Z _]|(b & E & H)]; [destruct (NZ1 Z)|]. exists b. split; auto. rewrite H.
  assert (I : forall a, a <> C0 -> (/ a)%C <> C0) by (intros a A I0; apply C1_neq_C0; transitivity (/ a * a)%C; [field; auto|rewrite I0; ring]).
  split; intros (z & Z0 & Q).
  - exists (/ a1 * (z * a2))%C. split; [apply Cmult_neq0; auto; apply Cmult_neq0; auto|]. intros i y. transitivity (/ a1 * (a1 * centry c1 i y))%C; [field; auto|]. rewrite <- V1, Q, V2 by apply cix_len. ring.
  - exists (a1 * z * / a2)%C. split; [apply Cmult_neq0; auto; apply Cmult_neq0; auto|]. intros ix L. destruct (cix_all so n ix SO L) as (y & i & ->). rewrite V1, V2, Q. field; auto.
Qed.
(** ** Example *)
Definition ex_circ : circuit := mkCirc 2 [GHAD 0; GCNOT 0 1; GZ KZPhase 1 (frac 1 4); GSWAP 0 1; GCPhase 0 1 (frac 1 2)].
Lemma ex_circ_ok : circ_ok ex_circ.
Proof.
  intros g H. cbn in H. repeat (destruct H as [<-|H]; [split; [split; [repeat constructor; cbn; intuition discriminate|split; [discriminate|exact I]]|cbn; intuition lia]|]). destruct H.
Qed.
(** is_unitary: the state with entries 1, 1 is called unitary *)
Definition ex_plus : graph := TensorUse.set_rows [0%Qc; 1%Qc] ex_vec.
Lemma ex_plus_ok : zinv ex_plus /\ io_ok ex_plus /\ no_iso_x ex_plus /\ layout ex_plus.
Proof. split; [apply zinvb_ok; vm_compute; reflexivity|]. split; [apply io_okb_ok; vm_compute; reflexivity|]. split; [apply no_iso_xb_ok; vm_compute; reflexivity|apply layoutb_ok; vm_compute; reflexivity]. Qed.
Lemma ex_plus_val : forall i y, val ex_plus i y = C1.
Proof. intros i y. transitivity (val ex_vec i y); [reflexivity|apply ex_vec_val]. Qed.
Lemma unitary_state : exists g, zinv g /\ io_ok g /\ no_iso_x g /\ layout g /\ length (ginputs g) <> length (goutputs g) /\ forall up1 up2, is_unitary up1 up2 g = Ok true.
Proof.
  exists ex_plus. destruct ex_plus_ok as (Z & IO & NX & LY). do 4 (split; [auto|]). split; [vm_compute; discriminate|]. intros up1 up2. unfold is_unitary.
  destruct (adjoint_val ex_plus Z IO) as (a & f & EA & _ & EI & EO & ZA & IA & _ & VA). rewrite EA. cbn [bind].
  assert (CA : exists a r, g_adjoint ex_plus = Ok a /\ compose a ex_plus = Ok r /\ no_iso_xb r = true /\ layoutb r = true /\ length (goutputs r) = 1 /\ length (ginputs r) = 1 /\ no_wireb a (goutputs a) = true).
  { eexists. eexists. split; [vm_compute; reflexivity|]. split; [vm_compute; reflexivity|]. repeat (split; [vm_compute; reflexivity|]). vm_compute; reflexivity. }
  destruct CA as (a' & r & EA' & ER & NXr & LYr & LO & LI & NW). rewrite EA in EA'. injection EA' as <-. rewrite ER. cbn [bind].
  destruct (compose_val a ex_plus ZA IA Z IO) as (r' & ER' & Zr & Ir & _ & _ & Vr); [rewrite EO; reflexivity|apply no_wireb_ok; auto|apply no_wireb_ok; vm_compute; reflexivity|].
  rewrite ER in ER'. injection ER' as <-. destruct (tensorfy_val r up1 Zr Ir (no_iso_xb_ok _ NXr) (layoutb_ok _ LYr)) as (T1 & E1 & S1 & V1). rewrite E1. cbn [bind].
  assert (EID : exists d, identity (length (ginputs ex_plus)) (crd 2) = Ok d /\ zinvb d = true /\ io_okb d = true /\ no_iso_xb d = true /\ layoutb d = true /\ ginputs d = [] /\ goutputs d = [] /\ vertices d = [] /\ gscalar d = scalar_init).
  { eexists. split; [vm_compute; reflexivity|]. repeat (split; [vm_compute; reflexivity|]). vm_compute; reflexivity. }
  destruct EID as (d & ED & Zd & Id & NXd & LYd & GI & GO & GV & GS). rewrite ED. cbn [bind].
  destruct (tensorfy_val d up2 (zinvb_ok _ Zd) (io_okb_ok _ Id) (no_iso_xb_ok _ NXd) (layoutb_ok _ LYd)) as (T2 & E2 & S2 & V2). rewrite E2. cbn [bind].
  rewrite LO, LI in S1. rewrite GI, GO in S2.
  assert (R1 : rank T1 = 2) by (unfold rank; rewrite S1; reflexivity). assert (R2 : rank T2 = 0) by (unfold rank; rewrite S2; reflexivity).
  assert (W1 : forall p q, tent T1 [p; q] = C1).
  { intros p q. transitivity (tent T1 (at_bits r (fun _ => p) (fun _ => q))); [unfold at_bits; rewrite LO, LI; reflexivity|]. rewrite V1, (Vr _ _ (fun _ => false)). rewrite EO.
    change (length (map f (ginputs ex_plus))) with 0. cbn [seq sumv]. cbv beta. rewrite VA, !ex_plus_val. unfold Cconj, C1, Cmult, RtoC. cbn. f_equal; lra. }
  assert (W2 : tent T2 [] = C1).
  { transitivity (tent T2 (at_bits d (fun _ => false) (fun _ => false))); [unfold at_bits; rewrite GI, GO; reflexivity|]. rewrite V2. unfold val, sem, internal. rewrite GV. cbn [filter sumv]. unfold integL. rewrite GS, scalar_init_number. cbn [cprod pprod]. ring. }
  unfold compare_tensors, allclose. rewrite R1, R2. cbn [Nat.max all_ix map app forallb]. unfold bc. rewrite R1, R2. cbn [length Nat.sub skipn]. rewrite !W1, W2. destruct (C_eq_dec C1 C1); [reflexivity|congruence].
Qed.
