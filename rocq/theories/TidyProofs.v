(** to_graph_like: the passes after fusion. *)
From Coq Require Import Reals ZArith QArith Qcanon List Bool Arith Lia Permutation FunctionalExtensionality.
From Verif Require Import LinModel LinProofs CNum Base ScalarModel ScalarProofs GraphModel GraphSem SumLemmas GraphProofs GraphOps RulesModel RuleLemmas
  SpiderProofs IsoProofs IdProofs LcompProofs PivotProofs PivotMatch GrowProofs StoreProofs InvProofs BfixProofs TotalProofs GrowTotal
  GateModel CircSpec GateProofs GateMask AmpProofs CircGraphModel CircGraphProofs CircGraphFacts VerifyProofs GraphAlgModel GraphAlgProofs GraphAlgFacts
  ComposeProofs ApplyProofs ExtractModel ExtractSem ExtractMap ExtractClean ExtractCz ExtractFront ExtractNbrs SimpModel TidyModel TidySub.
Import ListNotations.
Open Scope nat_scope.

(** ** Observers of a diagram under construction *)
Record obs (g : graph) (V : list nat) (T : nat -> vtype) (P : nat -> Qc) (E : nat -> nat -> option etype) (n : nat) : Prop := mkobs {
  ob_w : wfg g; ob_r : rows_ok g; ob_v : vertices g = V; ob_t : forall u, vty g u = T u; ob_p : forall u, phase g u = P u;
  ob_e : forall u v, edge_type g u v = E u v; ob_n : gvindex g = n }.
Definition iface (g h : graph) : Prop := ginputs h = ginputs g /\ goutputs h = goutputs g /\ gscalar h = gscalar g.
Lemma iface_trans : forall a b c, iface a b -> iface b c -> iface a c.
Proof. intros a b c [A1 [A2 A3]] [B1 [B2 B3]]. split; [|split]; congruence. Qed.
Lemma obs_self : forall g, wfg g -> rows_ok g -> obs g (vertices g) (vty g) (phase g) (edge_type g) (gvindex g).
Proof. intros. constructor; auto. Qed.
Lemma obs_vertex : forall g V T P E n q r, obs g V T P E n -> exists h, add_vertex ZSP q r None g = (h, n) /\
  obs h (V ++ [n]) (fun u => if Nat.eqb u n then ZSP else T u) (fun u => if Nat.eqb u n then 0%Qc else P u) E (S n) /\ iface g h /\ ~ In n V.
Proof.
  intros g V T P E n q r [W R HV HT HP HE HN]. rewrite add_vertex_None by discriminate.
  destruct (add_vertex ZSP q r (Some 0%Qc) g) as [h w] eqn:A.
  destruct (add_vertex_spec _ _ _ _ _ _ _ W A) as [Ew [W1 [V1 [ET1 [_ [T1 [P1 [I1 [O1 S1]]]]]]]]].
  destruct (add_vertex_rows _ _ _ _ _ _ _ W R A) as [_ [R1 _]].
  destruct (add_vertex_vindex _ _ _ _ _ _ _ A) as [_ N1]. rewrite HN in *. subst w. exists h. split; auto. split; [|split].
  - constructor; auto; try congruence; intros; rewrite ?T1, ?HT, ?P1, ?HP, ?ET1, ?qmod2_0; auto.
  - split; auto.
  - rewrite <- HV, <- HN. apply fresh_not_in. auto.
Qed.
Lemma obs_add : forall g V T P E n s t e, obs g V T P E n -> s <> t -> In s V -> In t V -> E s t = None -> exists h, add_edge s t e g = Ok h /\
  obs h V T P (fun u v => if pair_hit s t u v then Some e else E u v) n /\ iface g h.
Proof.
  intros g V T P E n s t e [W R HV HT HP HE HN] D Hs Ht X. rewrite <- HE in X. rewrite <- HV in Hs, Ht.
  destruct (add_edge_ok s t e g W D Hs Ht (or_introl X)) as [h A]. exists h. split; auto.
  destruct (fresh_edge _ _ _ _ _ W D X A) as [W3 [F [P3 [S3 [_ [_ ET3]]]]]]. split.
  - destruct F as [FV [FT [FI [FO [FN [FQ FR]]]]]]. constructor; try congruence.
    + intros u Hu. rewrite FR. apply R. congruence.
    + intros u. unfold vty. rewrite FT. apply HT.
    + intros u. unfold phase. rewrite P3. apply HP.
    + intros. rewrite ET3, HE. auto.
  - destruct F as [FV [FT [FI [FO _]]]]. split; auto.
Qed.
Lemma obs_del : forall g V T P E n s t, obs g V T P E n -> s <> t -> E s t <> None -> exists h, remove_edge s t g = Ok h /\
  obs h V T P (fun u v => if pair_hit s t u v then None else E u v) n /\ iface g h.
Proof.
  intros g V T P E n s t [W R HV HT HP HE HN] D X. rewrite <- HE in X. destruct (edge_type g s t) as [e|] eqn:Y; [|congruence].
  destruct (remove_edge_ok s t g e W D Y) as [h A]. exists h. split; auto.
  destruct (remove_edge_spec _ _ _ _ W D A) as [W3 [F [P3 [S3 [_ [_ [_ ET3]]]]]]]. split.
  - destruct F as [FV [FT [FI [FO [FN [FQ FR]]]]]]. constructor; try congruence.
    + intros u Hu. rewrite FR. apply R. congruence.
    + intros u. unfold vty. rewrite FT. apply HT.
    + intros u. unfold phase. rewrite P3. apply HP.
    + intros. rewrite ET3, HE. auto.
  - destruct F as [FV [FT [FI [FO _]]]]. split; auto.
Qed.
Lemma obs_geq : forall g h V T P E n V' T' P' E' n', obs g V T P E n -> obs h V' T' P' E' n' -> iface g h -> V' = V -> (forall u, T' u = T u) ->
  (forall u, P' u = P u) -> (forall u v, E' u v = E u v) -> geq g h.
Proof.
  intros g h V T P E n V' T' P' E' n' [] [] [A [B C]] HV HT HP HE. constructor; auto; intros; congruence.
Qed.
Lemma subd_obs : forall a b e1 e2 w g h V T P E n, subd a b e1 e2 w g h -> obs g V T P E n -> w = n /\
  obs h (V ++ [n]) (fun u => if Nat.eqb u n then ZSP else T u) (fun u => if Nat.eqb u n then 0%Qc else P u)
    (fun u x => if pair_hit n b u x then Some e2 else if pair_hit a n u x then Some e1 else if pair_hit a b u x then None else E u x) (S n) /\ iface g h.
Proof.
  intros a b e1 e2 w g h V T P E n [Z Hs HV Hw Hn HT HP HI HO HS HE] [W R GV GT GP GE GN]. assert (w = n) by congruence. subst w. split; auto.
  split; [|split; auto]. constructor.
  - apply Z.
  - apply Z.
  - congruence.
  - intros. rewrite HT, GT. rewrite ?GN. auto.
  - intros. rewrite HP, GP. rewrite ?GN. auto.
  - intros. rewrite HE, GE. rewrite ?GN. auto.
  - congruence.
Qed.
Lemma sem_obs : forall g V T P E n z u, obs g V T P E n -> wfg g -> ~ In z V -> E z u = None /\ E u z = None.
Proof.
  intros g V T P E n z u [] W H. rewrite <- ob_v0 in H. rewrite <- !ob_e0. apply edge_none_out; auto.
Qed.

Lemma pair_hit_iff : forall s t u v, pair_hit s t u v = true <-> (u = s /\ v = t) \/ (u = t /\ v = s).
Proof.
  intros. unfold pair_hit. rewrite orb_true_iff, !andb_true_iff, !Nat.eqb_eq. tauto.
Qed.
(** decide all tests [pair_hit s t u v] of the goal *)
Ltac phits := repeat match goal with |- context [pair_hit ?s ?t ?u ?v] =>
  let H := fresh "PH" in destruct (pair_hit s t u v) eqn:H;
  [apply pair_hit_iff in H; destruct H as [[? ?]|[? ?]]; subst; try congruence
  |let N1 := fresh "PN" in let N2 := fresh "PM" in
   assert (N1 : ~ (u = s /\ v = t)) by (intros X; rewrite (proj2 (pair_hit_iff s t u v)) in H by auto; discriminate);
   assert (N2 : ~ (u = t /\ v = s)) by (intros X; rewrite (proj2 (pair_hit_iff s t u v)) in H by auto; discriminate); clear H] end.
Ltac phdone := try congruence; try (exfalso; intuition congruence); try (exfalso; tauto); auto.

(** ** The three replacements *)
Definition tz1 (g : graph) (n u : nat) : vtype := if Nat.eqb u n then ZSP else vty g u.

Lemma bnd_nbr_ok : forall g v n, zinv g -> v <> n -> vty g v = BOUNDARY -> vty g n = BOUNDARY -> edge_type g v n = Some SIMPLE ->
  forall z1 z2 z3, gvindex g = z1 -> S z1 = z2 -> S z2 = z3 ->
  exists h, bnd_nbr v g n = Ok h /\ zinv h /\ (forall y, sem h y = sem g y) /\ iface g h /\
  obs h (vertices g ++ [z1; z2; z3]) (fun u => if Nat.eqb u z3 then ZSP else if Nat.eqb u z2 then ZSP else tz1 g z1 u)
    (fun u => if Nat.eqb u z3 then 0%Qc else if Nat.eqb u z2 then 0%Qc else if Nat.eqb u z1 then 0%Qc else phase g u)
    (fun u x => if pair_hit z3 n u x then Some SIMPLE else if pair_hit z2 z3 u x then Some HADAMARD else if pair_hit z1 z2 u x then Some HADAMARD else
       if pair_hit v z1 u x then Some SIMPLE else if pair_hit v n u x then None else edge_type g u x) (S z3).
Proof.
  intros g v n Z D Tv Tn E z1 z2 z3 D1 D2 D3. assert (W := zx_wf _ (zi_zx _ Z)).
  assert (Iv : In v (vertices g)) by (eapply edge_in_l; eauto).
  assert (In_ : In n (vertices g)) by (eapply edge_in_r; eauto).
  assert (O0 := obs_self g W (zi_rows _ Z)). rewrite D1 in O0.
  unfold bnd_nbr. rewrite vtype_r_ok, Tn by auto. cbn [bind vtype_eqb]. unfold new_spider.
  destruct (obs_vertex _ _ _ _ _ _ (Qcz (-1)) (Qcz (-1)) O0) as [g1 [A1 [B1 [I1 F1]]]]. rewrite A1. rewrite ?D2 in B1.
  destruct (obs_vertex _ _ _ _ _ _ (Qcz (-1)) (Qcz (-1)) B1) as [g2 [A2 [B2 [I2 F2]]]]. rewrite A2. rewrite ?D3 in B2.
  destruct (obs_vertex _ _ _ _ _ _ (Qcz (-1)) (Qcz (-1)) B2) as [g3 [A3 [B3 [I3 F3]]]]. rewrite A3.
  clear A1 A2 A3. assert (F2' : ~ In z2 (vertices g)) by (intros X; apply F2, in_app_iff; auto). assert (F3' : ~ In z3 (vertices g)) by (intros X; apply F3, in_app_iff; left; apply in_app_iff; auto).
  assert (Nv1 : v <> z1) by (intros ->; auto). assert (Nv2 : v <> z2) by (intros ->; contradiction). assert (Nv3 : v <> z3) by (intros ->; contradiction).
  assert (Nn1 : n <> z1) by (intros ->; auto). assert (Nn2 : n <> z2) by (intros ->; contradiction). assert (Nn3 : n <> z3) by (intros ->; contradiction).
  assert (N12 : z1 <> z2) by lia. assert (N13 : z1 <> z3) by lia. assert (N23 : z2 <> z3) by lia.
  assert (Q1 : forall u, edge_type g z1 u = None /\ edge_type g u z1 = None) by (intros; apply edge_none_out; auto).
  assert (Q2 : forall u, edge_type g z2 u = None /\ edge_type g u z2 = None) by (intros; apply edge_none_out; auto).
  assert (Q3 : forall u, edge_type g z3 u = None /\ edge_type g u z3 = None) by (intros; apply edge_none_out; auto).
  destruct (obs_del _ _ _ _ _ _ v n B3 D) as [g4 [A4 [B4 I4]]]; [congruence|]. rewrite A4. cbn [bind]. clear A4.
  destruct (obs_add _ _ _ _ _ _ v z1 SIMPLE B4) as [g5 [A5 [B5 I5]]]; auto; try (rewrite !in_app_iff; simpl; tauto).
  { rewrite (proj2 (Q1 v)). destruct (pair_hit _ _ _ _); auto. } rewrite A5. cbn [bind]. clear A5.
  destruct (obs_add _ _ _ _ _ _ z1 z2 HADAMARD B5) as [g6 [A6 [B6 I6]]]; auto; try (rewrite !in_app_iff; simpl; tauto).
  { rewrite (proj1 (Q1 z2)). phits; phdone. } rewrite A6. cbn [bind]. clear A6.
  destruct (obs_add _ _ _ _ _ _ z2 z3 HADAMARD B6) as [g7 [A7 [B7 I7]]]; auto; try (rewrite !in_app_iff; simpl; tauto).
  { rewrite (proj1 (Q2 z3)). phits; phdone. } rewrite A7. cbn [bind]. clear A7.
  destruct (obs_add _ _ _ _ _ _ z3 n SIMPLE B7) as [g8 [A8 [B8 I8]]]; auto; try (rewrite !in_app_iff; simpl; tauto).
  { rewrite (proj1 (Q3 n)). phits; phdone. } rewrite A8. clear A8. exists g8. split; auto.
  assert (I : iface g g8) by (eauto 10 using iface_trans). clear I1 I2 I3 I4 I5 I6 I7 I8. clear B1 B2 B3 B4 B5 B6 B7.
  (* the same diagram by three splittings *)
  destruct (subdiv_ok v n SIMPLE SIMPLE g Z D) as [h1 [w1 [_ U1]]]; try (unfold isX; rewrite ?Tv, ?Tn; auto); auto.
  destruct (subd_obs _ _ _ _ _ _ _ _ _ _ _ _ U1 O0) as [-> [C1 J1]]. rewrite D2 in C1.
  assert (X1 : forall u, isX h1 u = if Nat.eqb u z1 then false else isX g u).
  { intros u. unfold isX. rewrite (sd_t _ _ _ _ _ _ _ U1). destruct (Nat.eqb u z1); auto. }
  destruct (subdiv_ok z1 n HADAMARD HADAMARD h1 (sd_z _ _ _ _ _ _ _ U1)) as [h2 [w2 [_ U2]]]; auto.
  { rewrite X1, Nat.eqb_refl. auto. } { rewrite X1. destruct (Nat.eqb n z1); auto. unfold isX. rewrite Tn. auto. }
  { rewrite (sd_e _ _ _ _ _ _ _ U1). rewrite pair_hit_st. auto. }
  destruct (subd_obs _ _ _ _ _ _ _ _ _ _ _ _ U2 C1) as [-> [C2 J2]]. rewrite D3 in C2.
  assert (X2 : forall u, isX h2 u = if Nat.eqb u z2 then false else isX h1 u).
  { intros u. unfold isX. rewrite (sd_t _ _ _ _ _ _ _ U2). destruct (Nat.eqb u z2); auto. }
  destruct (subdiv_ok z2 n HADAMARD SIMPLE h2 (sd_z _ _ _ _ _ _ _ U2)) as [h3 [w3 [_ U3]]]; auto.
  { rewrite X2, Nat.eqb_refl. auto. } { rewrite X2, X1. destruct (Nat.eqb n z2), (Nat.eqb n z1); auto. unfold isX. rewrite Tn. auto. }
  { rewrite (sd_e _ _ _ _ _ _ _ U2). rewrite pair_hit_st. auto. }
  destruct (subd_obs _ _ _ _ _ _ _ _ _ _ _ _ U3 C2) as [-> [C3 J3]].
  assert (J : iface g h3) by (eauto using iface_trans).
  assert (GE : geq h3 g8).
  { eapply (obs_geq _ _ _ _ _ _ _ _ _ _ _ _ C3 B8); auto.
    - destruct I as [? [? ?]], J as [? [? ?]]. split; [|split]; congruence.
    - intros u x. phits; phdone; first [apply Q1|apply Q2]. }
  split; [|split; [|split; auto]].
  - apply (geq_zinv h3); auto; try apply B8. apply U3.
  - intros y. rewrite (geq_sem h3 g8 y GE), (sd_sem _ _ _ _ _ _ _ U3), (sd_sem _ _ _ _ _ _ _ U2), (sd_sem _ _ _ _ _ _ _ U1). auto.
  - rewrite <- !app_assoc in B8. exact B8.
Qed.

Definition out2 (g : graph) (v b z1 z2 u x : nat) : option etype :=
  if pair_hit z2 v u x then Some HADAMARD else if pair_hit b z1 u x then Some SIMPLE else if pair_hit z1 z2 u x then Some HADAMARD else
  if pair_hit v b u x then None else edge_type g u x.
Definition out1 (g : graph) (v b z u x : nat) : option etype :=
  if pair_hit z v u x then Some HADAMARD else if pair_hit b z u x then Some SIMPLE else if pair_hit v b u x then None else edge_type g u x.

Lemma dummy_simple_ok : forall g v b, zinv g -> vty g v = ZSP -> vty g b = BOUNDARY -> edge_type g v b = Some SIMPLE ->
  forall z1 z2, gvindex g = z1 -> S z1 = z2 ->
  exists h, dummy_step v g b = Ok h /\ zinv h /\ (forall y, sem h y = sem g y) /\ iface g h /\
  obs h (vertices g ++ [z1; z2]) (fun u => if Nat.eqb u z2 then ZSP else tz1 g z1 u)
    (fun u => if Nat.eqb u z2 then 0%Qc else if Nat.eqb u z1 then 0%Qc else phase g u) (out2 g v b z1 z2) (S z2).
Proof.
  intros g v b Z Tv Tb E z1 z2 D1 D2. assert (W := zx_wf _ (zi_zx _ Z)).
  assert (D : v <> b) by congruence.
  assert (Iv : In v (vertices g)) by (eapply edge_in_l; eauto).
  assert (Ib : In b (vertices g)) by (eapply edge_in_r; eauto).
  assert (O0 := obs_self g W (zi_rows _ Z)). rewrite D1 in O0.
  unfold dummy_step. rewrite E.
  match goal with |- context [add_vertex ZSP ?q ?r None g] => destruct (obs_vertex _ _ _ _ _ _ q r O0) as [g1 [A1 [B1 [I1 F1]]]] end. rewrite A1. rewrite ?D2 in B1.
  match goal with |- context [add_vertex ZSP ?q ?r None g1] => destruct (obs_vertex _ _ _ _ _ _ q r B1) as [g2 [A2 [B2 [I2 F2]]]] end. rewrite A2.
  clear A1 A2. assert (F2' : ~ In z2 (vertices g)) by (intros X; apply F2, in_app_iff; auto).
  assert (Nv1 : v <> z1) by (intros ->; auto). assert (Nv2 : v <> z2) by (intros ->; contradiction).
  assert (Nn1 : b <> z1) by (intros ->; auto). assert (Nn2 : b <> z2) by (intros ->; contradiction).
  assert (N12 : z1 <> z2) by lia.
  assert (Q1 : forall u, edge_type g z1 u = None /\ edge_type g u z1 = None) by (intros; apply edge_none_out; auto).
  assert (Q2 : forall u, edge_type g z2 u = None /\ edge_type g u z2 = None) by (intros; apply edge_none_out; auto).
  destruct (obs_del _ _ _ _ _ _ v b B2 D) as [g4 [A4 [B4 I4]]]; [congruence|]. rewrite A4. cbn [bind]. clear A4.
  destruct (obs_add _ _ _ _ _ _ z1 z2 HADAMARD B4) as [g5 [A5 [B5 I5]]]; auto; try (rewrite !in_app_iff; simpl; tauto).
  { rewrite (proj1 (Q1 z2)). destruct (pair_hit _ _ _ _); auto. } rewrite A5. cbn [bind]. clear A5.
  destruct (obs_add _ _ _ _ _ _ b z1 SIMPLE B5) as [g6 [A6 [B6 I6]]]; auto; try (rewrite !in_app_iff; simpl; tauto).
  { rewrite (proj2 (Q1 b)). phits; phdone. } rewrite A6. cbn [bind]. clear A6.
  destruct (obs_add _ _ _ _ _ _ z2 v HADAMARD B6) as [g7 [A7 [B7 I7]]]; auto; try (rewrite !in_app_iff; simpl; tauto).
  { rewrite (proj1 (Q2 v)). phits; phdone. } rewrite A7. cbn [bind]. clear A7. exists g7. split; auto.
  assert (I : iface g g7) by (eauto 10 using iface_trans). clear I1 I2 I4 I5 I6 I7. clear B1 B2 B4 B5 B6.
  destruct (subdiv_ok b v SIMPLE SIMPLE g Z) as [h1 [w1 [_ U1]]]; try (unfold isX; rewrite ?Tv, ?Tb; auto); auto.
  { rewrite wf_sym; auto. }
  destruct (subd_obs _ _ _ _ _ _ _ _ _ _ _ _ U1 O0) as [-> [C1 J1]]. rewrite D2 in C1.
  assert (X1 : forall u, isX h1 u = if Nat.eqb u z1 then false else isX g u).
  { intros u. unfold isX. rewrite (sd_t _ _ _ _ _ _ _ U1). destruct (Nat.eqb u z1); auto. }
  destruct (subdiv_ok z1 v HADAMARD HADAMARD h1 (sd_z _ _ _ _ _ _ _ U1)) as [h2 [w2 [_ U2]]]; auto.
  { rewrite X1, Nat.eqb_refl. auto. } { rewrite X1. destruct (Nat.eqb v z1); auto. unfold isX. rewrite Tv. auto. }
  { rewrite (sd_e _ _ _ _ _ _ _ U1). rewrite pair_hit_st. auto. }
  destruct (subd_obs _ _ _ _ _ _ _ _ _ _ _ _ U2 C1) as [-> [C2 J2]].
  assert (J : iface g h2) by (eauto using iface_trans). clear D1 D2.
  assert (GE : geq h2 g7).
  { eapply (obs_geq _ _ _ _ _ _ _ _ _ _ _ _ C2 B7); auto.
    - destruct I as [? [? ?]], J as [? [? ?]]. split; [|split]; congruence.
    - intros u x. phits; phdone; first [apply Q1|apply Q2]. }
  split; [|split; [|split; auto]].
  - apply (geq_zinv h2); auto; try apply B7. apply U2.
  - intros y. rewrite (geq_sem h2 g7 y GE), (sd_sem _ _ _ _ _ _ _ U2), (sd_sem _ _ _ _ _ _ _ U1). auto.
  - rewrite <- !app_assoc in B7. exact B7.
Qed.

Lemma dummy_had_ok : forall g v b, zinv g -> vty g v = ZSP -> vty g b = BOUNDARY -> edge_type g v b = Some HADAMARD ->
  forall z, gvindex g = z -> 
  exists h, dummy_step v g b = Ok h /\ zinv h /\ (forall y, sem h y = sem g y) /\ iface g h /\
  obs h (vertices g ++ [z]) (tz1 g z) (fun u => if Nat.eqb u z then 0%Qc else phase g u) (out1 g v b z) (S z).
Proof.
  intros g v b Z Tv Tb E z1 D1. assert (W := zx_wf _ (zi_zx _ Z)).
  assert (D : v <> b) by congruence.
  assert (Iv : In v (vertices g)) by (eapply edge_in_l; eauto).
  assert (Ib : In b (vertices g)) by (eapply edge_in_r; eauto).
  assert (O0 := obs_self g W (zi_rows _ Z)). rewrite D1 in O0.
  unfold dummy_step. rewrite E.
  match goal with |- context [add_vertex ZSP ?q ?r None g] => destruct (obs_vertex _ _ _ _ _ _ q r O0) as [g1 [A1 [B1 [I1 F1]]]] end. rewrite A1.
  clear A1.
  assert (Nv1 : v <> z1) by (intros ->; auto). assert (Nn1 : b <> z1) by (intros ->; auto).
  assert (Q1 : forall u, edge_type g z1 u = None /\ edge_type g u z1 = None) by (intros; apply edge_none_out; auto).
  destruct (obs_del _ _ _ _ _ _ v b B1 D) as [g4 [A4 [B4 I4]]]; [congruence|]. rewrite A4. cbn [bind]. clear A4.
  destruct (obs_add _ _ _ _ _ _ b z1 SIMPLE B4) as [g6 [A6 [B6 I6]]]; auto; try (rewrite !in_app_iff; simpl; tauto).
  { rewrite (proj2 (Q1 b)). phits; phdone. } rewrite A6. cbn [bind]. clear A6.
  destruct (obs_add _ _ _ _ _ _ z1 v HADAMARD B6) as [g7 [A7 [B7 I7]]]; auto; try (rewrite !in_app_iff; simpl; tauto).
  { rewrite (proj1 (Q1 v)). phits; phdone. } rewrite A7. cbn [bind]. clear A7. exists g7. split; auto.
  assert (I : iface g g7) by (eauto 10 using iface_trans). clear I1 I4 I6 I7. clear B1 B4 B6.
  destruct (subdiv_ok b v SIMPLE HADAMARD g Z) as [h1 [w1 [_ U1]]]; try (unfold isX; rewrite ?Tv, ?Tb; auto); auto.
  { rewrite wf_sym; auto. }
  destruct (subd_obs _ _ _ _ _ _ _ _ _ _ _ _ U1 O0) as [-> [C1 J1]]. clear D1.
  assert (GE : geq h1 g7).
  { eapply (obs_geq _ _ _ _ _ _ _ _ _ _ _ _ C1 B7); auto.
    - destruct I as [? [? ?]], J1 as [? [? ?]]. split; [|split]; congruence.
    - intros u x. phits; phdone; first [apply Q1]. }
  split; [|split; [|split; auto]].
  - apply (geq_zinv h1); auto; try apply B7. apply U1.
  - intros y. rewrite (geq_sem h1 g7 y GE), (sd_sem _ _ _ _ _ _ _ U1). auto.
Qed.
