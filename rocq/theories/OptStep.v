(** Placing CZ and CNOT gates in the optimizer's state *)
From Coq Require Import Reals ZArith QArith Qcanon List Bool Arith Lia FunctionalExtensionality Permutation.
From Verif Require Import LinModel PermModel CNum Base ScalarModel ScalarProofs GateModel OptModel GraphSem SumLemmas CircSpec GateProofs GateDecomp GateAdj OptTrace OptSem OptInv.
Import ListNotations.
Open Scope nat_scope.

Lemma same_pend_trans : forall a b c, same_pend a b -> same_pend b c -> same_pend a c.
Proof. intros a b c [A1 [A2 [A3 A4]]] [B1 [B2 [B3 B4]]]. unfold same_pend. rewrite B1, B2, B3, B4. auto. Qed.
Lemma same_pend_id : forall a, same_pend a a. Proof. repeat split. Qed.

(** *** the two ways in which a gate on two qubits is placed *)
Lemma pair_place : forall n st W c t k (p : igate -> bool), ginv n st W -> c <> t -> c < n -> t < n -> wg k -> gate_qubits k = [c; t] ->
  (forall i, is_zphase (i, k) = false) -> (forall g, p g = true -> snd g = k) -> (forall s, gden k (gden k s) = s) ->
  (zt c k = true /\ o_two st c = false) -> (zt t k = true /\ o_two st t = false \/ xt t k = true /\ o_two st t = true) ->
  exists st' W', match find p (rev (o_avail st c)) with
                 | Some g => if ig_mem g (o_avail st t) then pair_rem st c t g else Ok (pair_add st c t k)
                 | None => Ok (pair_add st c t k) end = Ok st' /\
    ginv n st' W' /\ same_pend st st' /\ forall s, gden k (tden W s) = tden W' s.
Proof.
  intros n st W c t k p GI N Hc Ht Wk Q NZ Hp Inv Zc Tt.
  assert (ADD : exists st' W', @Ok ostate (pair_add st c t k) = Ok st' /\ ginv n st' W' /\ same_pend st st' /\ forall s, gden k (tden W s) = tden W' s).
  { destruct (pair_add_ok n st W c t k) as [A [B C]]; auto. eexists _, _. split; [reflexivity|]. split; [exact A|]. split; auto. }
  destruct (find p (rev (o_avail st c))) as [g|] eqn:E; auto. destruct (ig_mem g (o_avail st t)) eqn:M; auto.
  apply find_some in E. destruct E as [Ic Pg]. apply in_rev in Ic. apply Hp in Pg.
  apply (ig_mem_in W) in M; [|apply (gi_nd _ _ _ GI)|apply (av_w _ _ _ GI c); auto|intros x; apply (av_w _ _ _ GI)].
  destruct (pair_rem_ok n st W c t g) as [st' [A [B [C [D F]]]]]; auto; [rewrite Pg; auto|destruct g as [i k']; cbn [snd] in Pg; subst; auto|].
  exists st', (rem g W). split; auto. split; auto. split; auto. intros s. rewrite F, Pg, Inv. auto.
Qed.
Lemma reset_two : forall st q b, o_two (reset st q b) q = b. Proof. intros. cbn [reset set_two o_two]. apply fset_same. Qed.
Lemma reset_two' : forall st q b p, p <> q -> o_two (reset st q b) p = o_two st p. Proof. intros. cbn [reset set_two o_two]. apply fset_other. auto. Qed.
Lemma reset_pend : forall st q b, same_pend st (reset st q b). Proof. repeat split. Qed.

Lemma cnot_plain_ok : forall n st W c t, ginv n st W -> c <> t -> c < n -> t < n -> o_two st c = false ->
  exists st' W', cnot_plain c t st = Ok st' /\ ginv n st' W' /\ same_pend st st' /\ forall s, gden (GCNOT c t) (tden W s) = tden W' s.
Proof.
  intros n st W c t GI N Hc Ht T. unfold cnot_plain. set (st1 := if o_two st t then st else reset st t true).
  assert (G1 : ginv n st1 W) by (unfold st1; destruct (o_two st t); auto using ginv_reset).
  assert (P1 : same_pend st st1) by (unfold st1; destruct (o_two st t); repeat split).
  assert (T1 : o_two st1 t = true) by (unfold st1; destruct (o_two st t) eqn:E; auto; apply reset_two).
  assert (C1' : o_two st1 c = false) by (unfold st1; destruct (o_two st t) eqn:E; auto; rewrite reset_two'; auto).
  destruct (pair_place n st1 W c t (GCNOT c t) (is_cnot c t)) as [st' [W' [A [B [C D]]]]]; auto.
  - intros [i k]. unfold is_cnot. cbn [snd]. destruct k; intros H; try discriminate. apply andb_true_iff in H. rewrite !Nat.eqb_eq in H. destruct H; subst; auto.
  - intros; apply cnot_cnot; auto.
  - split; auto. simpl. apply Nat.eqb_refl.
  - right. split; auto. simpl. apply Nat.eqb_refl.
  - exists st', W'. split; [exact A|]. split; auto. split; auto. apply (same_pend_trans _ st1); auto.
Qed.

Lemma cz_plain_ok : forall n st W c t, ginv n st W -> c <> t -> c < n -> t < n ->
  exists st' W', add_cz false c t st = Ok st' /\ ginv n st' W' /\ same_pend st st' /\ forall s, gden (GCZ c t) (tden W s) = tden W' s.
Proof.
  intros n st W c t GI N Hc Ht. unfold add_cz. cbn [cz_search]. set (st1 := if o_two st c then reset st c false else st). set (st2 := if o_two st1 t then reset st1 t false else st1).
  assert (G1 : ginv n st1 W) by (unfold st1; destruct (o_two st c); auto using ginv_reset).
  assert (G2 : ginv n st2 W) by (unfold st2; destruct (o_two st1 t); auto using ginv_reset).
  assert (P1 : same_pend st st1) by (unfold st1; destruct (o_two st c); repeat split).
  assert (P2 : same_pend st1 st2) by (unfold st2; destruct (o_two st1 t); repeat split).
  assert (T1 : o_two st1 c = false) by (unfold st1; destruct (o_two st c) eqn:E; auto; apply reset_two).
  assert (T2 : o_two st2 c = false) by (unfold st2; destruct (o_two st1 t) eqn:E; auto; rewrite reset_two'; auto).
  assert (T3 : o_two st2 t = false) by (unfold st2; destruct (o_two st1 t) eqn:E; auto; apply reset_two).
  destruct (pair_place n st2 W c t (GCZ c t) (is_cz c t)) as [st' [W' [A [B [C D]]]]]; auto.
  - intros [i k]. unfold is_cz. cbn [snd]. destruct k; intros H; try discriminate. apply andb_true_iff in H. rewrite !Nat.eqb_eq in H. destruct H; subst; auto.
  - intros; apply cz_cz; auto.
  - split; auto. simpl. rewrite Nat.eqb_refl. auto.
  - left. split; auto. simpl. rewrite Nat.eqb_refl. apply orb_true_r.
  - exists st', W'. split; [exact A|]. split; auto. split; auto. apply (same_pend_trans _ st1); auto. apply (same_pend_trans _ st2); auto.
Qed.

(** *** a CNOT after its reverse: the two qubits change places *)
Lemma cnot_swap_ok : forall n st W c t g, ginv n st W -> c <> t -> c < n -> t < n -> o_two st t = false -> snd g = GCNOT t c -> In g (o_avail st c) -> In g (o_avail st t) ->
  exists st' W', cnot_swap c t g st = Ok st' /\ ginv n st' W' /\
    o_hads st' = swap_element (o_hads st) t c /\ o_nots st' = swap_element (o_nots st) t c /\ o_zs st' = swap_element (o_zs st) t c /\
    o_perm st' = fset (fset (o_perm st) c (o_perm st t)) t (o_perm st c) /\
    forall s, gden (GCNOT c t) (tden W s) = gden (GSWAP c t) (tden W' s).
Proof.
  intros n st W c t g GI N Hc Ht T Eg Ic It. assert (ND := gi_nd _ _ _ GI). assert (IW := av_w _ _ _ GI c g Ic).
  assert (ON : forall q, onq q (snd g) = Nat.eqb q c || Nat.eqb q t) by (intros; rewrite Eg, on2; apply orb_comm).
  unfold cnot_swap. rewrite (gates_rem_ok n st W GI c g) by (apply (av_in _ _ _ GI); auto). cbn [bind]. unfold gates_rem. cbn [set_gates o_gates]. rewrite (fset_other _ _ c _ t) by auto.
  rewrite (ig_remove_in W g (o_gates st t)); auto; [|intros; apply (gates_w _ _ _ GI t); auto|apply (gi_ndq _ _ _ GI)|apply (av_in _ _ _ GI); auto]. cbn [bind].
  set (G1 := fset (fset (o_gates st) c (rem g (o_gates st c))) t (rem g (o_gates st t))).
  assert (HG : forall q, G1 q = rem g (o_gates st q)).
  { intros q. unfold G1. destruct (Nat.eq_dec q t) as [->|Nt]; [rewrite fset_same; auto|]. rewrite fset_other by auto. destruct (Nat.eq_dec q c) as [->|Nc]; [rewrite fset_same; auto|]. rewrite fset_other by auto.
    symmetry. apply (rem_off _ W); [apply (gi_rep _ _ _ GI)|]. rewrite ON. apply off2; auto. }
  set (st1 := set_gates (reset (reset st c false) t true) G1).
  assert (GI1 : ginv n st1 (rem g W)).
  { apply (ginv_rem n st); auto. intros q. unfold st1. cbn [set_gates reset set_two set_avail o_gates o_avail o_two].
    destruct (Nat.eq_dec q t) as [->|Nt]; [rewrite !fset_same; apply avok_nil|]. rewrite !(fset_other _ _ t) by auto.
    destruct (Nat.eq_dec q c) as [->|Nc]; [rewrite !fset_same; apply avok_nil|]. rewrite !fset_other by auto. rewrite HG.
    apply avok_off; [apply (gi_av _ _ _ GI)|]. intros I. apply (rep_on _ _ (gi_rep _ _ _ GI)) in I. rewrite ON, off2 in I by auto. discriminate. }
  eexists _, (rem g W ++ [(o_count st, GCNOT c t)]). split; [reflexivity|]. split; [|repeat split; auto].
  - apply (ginv_add n st1); auto.
    + cbn [snd]. intros q O. rewrite on2 in O. apply orb_true_iff in O. rewrite !Nat.eqb_eq in O. destruct O; subst; auto.
    + intros q. cbn [snd]. rewrite on2. cbn [set_zs set_nots set_hads set_perm set_avail gates_app tick set_count set_two set_gates o_gates o_perm o_two o_avail]. unfold st1. cbn [set_gates o_gates].
      destruct (Nat.eq_dec q t) as [->|Nt]; [rewrite fset_same, fset_other, Nat.eqb_refl, orb_true_r by auto; auto|]. rewrite fset_other by auto.
      destruct (Nat.eq_dec q c) as [->|Nc]; [rewrite fset_same, Nat.eqb_refl; auto|]. rewrite fset_other, off2 by auto. auto.
    + intros q. cbn [set_zs set_nots set_hads set_perm set_avail gates_app tick set_count set_two set_gates o_gates o_perm o_two o_avail o_count].
      destruct (Nat.eq_dec q t) as [->|Nt].
      * rewrite !fset_same. apply (avok_x t _ []); [apply avok_nil|]. simpl. apply Nat.eqb_refl.
      * rewrite !(fset_other _ _ t) by auto. destruct (Nat.eq_dec q c) as [->|Nc].
        -- rewrite !fset_same. apply (avok_z c _ []); [apply avok_nil|]. simpl. apply Nat.eqb_refl.
        -- rewrite !fset_other by auto. rewrite HG. apply avok_off; [apply (gi_av _ _ _ GI)|]. intros I. apply (rep_on _ _ (gi_rep _ _ _ GI)) in I. rewrite ON, off2 in I by auto. discriminate.
  - intros s. rewrite tden_snoc. cbn [snd]. rewrite (last_den n st W g s GI IW).
    + rewrite Eg. apply cnot_swap_id; auto.
    + assert (NZ : is_zphase g = false) by (unfold is_zphase; rewrite Eg; auto). intros q O. rewrite ON in O. apply orb_true_iff in O. rewrite !Nat.eqb_eq in O.
      destruct O as [-> | ->]; [destruct (avok_last _ _ _ _ g (gi_av _ _ _ GI c) Ic) as [l1 [l2 [E [H _]]]]|destruct (avok_last _ _ _ _ g (gi_av _ _ _ GI t) It) as [l1 [l2 [E [H _]]]]]; auto; exists l1, l2; auto.
Qed.

(** *** a CZ is absorbed by a CNOT before it *)
Lemma earlier_q : forall G P R g h q l1 l2, NoDup (P ++ g :: R) -> rep G (P ++ g :: R) -> onq q (snd g) = true -> onq q (snd h) = true ->
  same q (snd g) (snd h) = false -> G q = l1 ++ g :: l2 -> In h l2 -> In h R.
Proof.
  intros G P R g h q l1 l2 N RP Og Oh S E I. assert (X := rep_pr _ _ RP q g h Og Oh (or_intror S)).
  assert (NG := rep_nodup _ _ q RP N). destruct (nodup_split _ _ _ N) as [NP NR]. rewrite E in NG. destruct (nodup_split _ _ _ NG) as [N1 N2].
  assert (IW : In h (P ++ g :: R)) by (apply (rep_in_w G _ q); auto; rewrite E; apply in_or_app; right; right; auto).
  apply in_app_or in IW. destruct IW as [IP|[->|IR]]; auto; [|contradiction]. exfalso.
  assert (Nh : h <> g) by (intros ->; contradiction).
  rewrite E, !proj_app, !proj_cl in X.
  assert (L1 : proj g h l1 = []). { apply proj_nil; auto. intros J. change (l1 ++ g :: l2) with (l1 ++ [g] ++ l2) in NG. apply (nodup_app_out l1 ([g] ++ l2) h NG); [right; auto|auto]. }
  rewrite L1 in X. cbn [app] in X. destruct (proj g h P) as [|y r] eqn:EP.
  - assert (K : In h (proj g h P)) by (apply proj_in; auto). rewrite EP in K. destruct K.
  - cbn [app] in X. inversion X; subst y. assert (K : In g (proj g h P)) by (rewrite EP; left; auto). apply proj_in in K. tauto.
Qed.
Lemma first_split : forall (f : igate -> bool) l, exists a b, l = a ++ b /\ (forall x, In x a -> f x = false) /\ (b = [] \/ exists y r, b = y :: r /\ f y = true).
Proof.
  intros f. induction l as [|x l IH]; [exists [], []; split; auto; split; auto; intros x []|]. destruct (f x) eqn:E.
  - exists [], (x :: l). split; auto. split; [intros y []|]. right. exists x, l. auto.
  - destruct IH as [a [b [-> [H K]]]]. exists (x :: a), b. split; auto. split; auto. intros y [<-|I]; auto.
Qed.
Lemma reach_split : forall W g t l, NoDup (map fst W) -> In g W -> (forall x, In x l -> In x W) -> reach g t l = true ->
  exists a b, l = a ++ g :: b /\ forall h, In h a -> xt t (snd h) = true.
Proof.
  induction l as [|h l IH]; intros N G L H; [discriminate|]. cbn [reach] in H. destruct (is_cnot_to t h) eqn:E; [|discriminate].
  assert (Xh : xt t (snd h) = true) by (unfold is_cnot_to in E; destruct (snd h); try discriminate; simpl; rewrite Nat.eqb_sym; auto).
  destruct (ig_eqb h g) eqn:Q.
  - apply (ig_eqb_in W) in Q; auto; [|apply L; left; auto]. subst. exists [], l. split; [auto|intros x []].
  - destruct (IH N G) as [a [b [-> K]]]; auto; [intros; apply L; right; auto|]. exists (h :: a), b. split; auto. intros x [<-|I]; auto.
Qed.
Lemma zx_false : forall q g, wg g -> zt q g = true -> xt q g = true -> False.
Proof. intros q g Wg Z X. destruct g; simpl in *; try discriminate. apply Nat.eqb_eq in Z, X. subst. auto. Qed.

Lemma zt_same : forall q a b, zt q a = true -> zt q b = true -> same q a b = true. Proof. intros. unfold same. rewrite H, H0. auto. Qed.
Lemma xt_same : forall q a b, xt q a = true -> xt q b = true -> same q a b = true. Proof. intros. unfold same. rewrite H, H0. apply orb_true_r. Qed.
Lemma same_xt : forall q a b, same q a b = true -> zt q a = false -> xt q b = true.
Proof. intros q a b H Z. unfold same in H. rewrite Z in H. simpl in H. apply andb_true_iff in H. tauto. Qed.
Lemma same_zt : forall q a b, same q a b = true -> xt q a = false -> zt q b = true.
Proof. intros q a b H Z. unfold same in H. rewrite Z in H. simpl in H. rewrite orb_false_r in H. apply andb_true_iff in H. tauto. Qed.

(** where the four gates go *)
Lemma absorb_split : forall G W g c t a1 a2 B c1 c2, NoDup W -> wgs W -> rep G W -> c <> t -> snd g = GCNOT c t ->
  G t = a1 ++ g :: a2 ++ B -> (forall h, In h a2 -> xt t (snd h) = true) -> (forall h, In h B -> zt t (snd h) = true) ->
  G c = c1 ++ g :: c2 -> (forall h, In h c2 -> zt c (snd h) = true) ->
  exists P R, rem g W = P ++ R /\ teq W (P ++ g :: R) /\ (forall h, In h R -> onq c (snd h) = true -> zt c (snd h) = true) /\
    (forall h, In h R -> onq t (snd h) = true -> zt t (snd h) = true) /\
    (forall h, onq t (snd h) = true -> xt t (snd h) = false -> (In h B <-> In h R)).
Proof.
  intros G W g c t a1 a2 B c1 c2 N WW RP Nct Eg Et Ha HB Ec Hc.
  assert (Og : forall q, onq q (snd g) = Nat.eqb q c || Nat.eqb q t) by (intros; rewrite Eg; apply on2).
  assert (Ogc : onq c (snd g) = true) by (rewrite Og, Nat.eqb_refl; auto). assert (Ogt : onq t (snd g) = true) by (rewrite Og, Nat.eqb_refl; apply orb_true_r).
  assert (Zc : zt c (snd g) = true) by (rewrite Eg; simpl; apply Nat.eqb_refl). assert (Xt : xt t (snd g) = true) by (rewrite Eg; simpl; apply Nat.eqb_refl).
  assert (Zt : zt t (snd g) = false) by (rewrite Eg; simpl; apply Nat.eqb_neq; auto). assert (Xc : xt c (snd g) = false) by (rewrite Eg; simpl; apply Nat.eqb_neq; auto).
  assert (IW : In g W) by (apply (rep_in_w G W t); auto; rewrite Et; apply in_or_app; right; left; auto).
  destruct (in_split _ _ IW) as [W1 [W2 EW]]. destruct (first_split (fun h => zt t (snd h)) W2) as [Wa [Wb [E2 [Ka Kb]]]].
  assert (N' : NoDup (W1 ++ g :: W2)) by (rewrite <- EW; auto). assert (R' : rep G (W1 ++ g :: W2)) by (rewrite <- EW; auto).
  destruct (nodup_split _ _ _ N') as [Ng1 Ng2].
  assert (Lc : forall h, In h W2 -> onq c (snd h) = true -> zt c (snd h) = true).
  { intros h I O. destruct (same c (snd g) (snd h)) eqn:S; [apply (same_zt _ _ _ S Xc)|]. apply Hc. apply (later_q G W1 W2 g h c c1); auto. }
  assert (Lt : forall h, In h W2 -> onq t (snd h) = true -> xt t (snd h) = true \/ (In h B /\ zt t (snd h) = true)).
  { intros h I O. destruct (same t (snd g) (snd h)) eqn:S; [left; apply (same_xt _ _ _ S Zt)|].
    assert (J := later_q G W1 W2 g h t a1 (a2 ++ B) N' R' I Ogt O S Et). apply in_app_or in J. destruct J as [J|J]; auto. }
  assert (Wb_t : forall h, In h Wb -> onq t (snd h) = true -> zt t (snd h) = true).
  { intros h I O. destruct Kb as [->|[z [r [-> Zz]]]]; [destruct I|]. destruct I as [<-|I]; auto. destruct (zt t (snd h)) eqn:Zh; auto. exfalso.
    assert (Iz : In z W2) by (rewrite E2; apply in_or_app; right; left; auto). assert (Wz : wg (snd z)) by (apply WW; rewrite EW; apply in_or_app; right; right; auto).
    assert (Oz : onq t (snd z) = true) by (clear -Zz Wz; unfold onq; destruct (snd z); simpl in *; try discriminate; rewrite ?orb_false_r; auto; rewrite Zz; auto).
    destruct (Lt z Iz Oz) as [X|[IB _]]; [exact (zx_false _ _ Wz Zz X)|].
    destruct (in_split _ _ IB) as [b1 [b2 EB]].
    assert (Nz : NoDup ((W1 ++ g :: Wa) ++ z :: r)) by (replace ((W1 ++ g :: Wa) ++ z :: r) with (W1 ++ g :: W2) by (rewrite E2, <- app_assoc; reflexivity); auto).
    assert (Rz : rep G ((W1 ++ g :: Wa) ++ z :: r)) by (replace ((W1 ++ g :: Wa) ++ z :: r) with (W1 ++ g :: W2) by (rewrite E2, <- app_assoc; reflexivity); auto).
    assert (J : In h b2). { apply (later_q G (W1 ++ g :: Wa) r z h t (a1 ++ g :: a2 ++ b1)); auto.
      - unfold same. rewrite Zh, andb_false_r. simpl. destruct (xt t (snd z)) eqn:X; auto. exfalso. exact (zx_false _ _ Wz Zz X).
      - rewrite Et, EB. rewrite <- app_assoc. cbn [app]. rewrite <- app_assoc. auto. }
    rewrite HB in Zh; [discriminate|]. rewrite EB. apply in_or_app. right; right; auto. }
  exists (W1 ++ Wa), Wb. assert (ER : rem g W = (W1 ++ Wa) ++ Wb) by (rewrite EW, rem_split, E2, app_assoc; auto).
  assert (T : teq W ((W1 ++ Wa) ++ g :: Wb)).
  { rewrite EW, E2. rewrite <- app_assoc. apply teq_app; [apply teq_refl|]. change (g :: Wa ++ Wb) with ((g :: Wa) ++ Wb). change (Wa ++ g :: Wb) with (Wa ++ [g] ++ Wb). rewrite app_assoc. apply teq_app; [|apply teq_refl].
    intros a b D. assert (NgA : ~ In g Wa) by (intros J; apply Ng2; rewrite E2; apply in_or_app; auto).
    assert (C : forall h, In h Wa -> ~ dep g h). { intros h I [q [A [Bq S]]]. assert (I2 : In h W2) by (rewrite E2; apply in_or_app; auto).
      rewrite Og in A. apply orb_true_iff in A. rewrite !Nat.eqb_eq in A. destruct A as [-> | ->].
      - rewrite (zt_same c (snd g) (snd h) Zc (Lc h I2 Bq)) in S. discriminate.
      - destruct (Lt h I2 Bq) as [X|[_ Z]]; [rewrite (xt_same _ _ _ Xt X) in S; discriminate|]. rewrite (Ka h I) in Z. discriminate. }
    rewrite proj_app. destruct (igate_dec a g) as [->|Na]; [|destruct (igate_dec b g) as [->|Nb]].
    - rewrite proj_cl, proj_l. destruct (in_dec igate_dec b Wa) as [Ib|Nb].
      + destruct D as [->|D]; [contradiction|]. exfalso. apply (C b); auto.
      + rewrite proj_nil; auto.
    - rewrite proj_cr, proj_r. destruct (in_dec igate_dec a Wa) as [Ia|Na'].
      + destruct D as [->|D]; [contradiction|]. exfalso. apply (C a); auto. apply dep_sym; auto.
      + rewrite proj_nil; auto.
    - rewrite proj_cs, proj_skip, app_nil_r; auto. }
  split; auto. split; auto. split; [|split; auto].
  - intros h I. apply Lc. rewrite E2. apply in_or_app; auto.
  - intros h O X. assert (ND2 : NoDup ((W1 ++ Wa) ++ g :: Wb)).
    { rewrite nodup_count in *. intros a. assert (K := N a). assert (Q := T a a (or_introl eq_refl)). rewrite !proj_count in Q. apply (f_equal (@length _)) in Q. rewrite !repeat_length in Q. lia. }
    assert (RP2 : rep G ((W1 ++ Wa) ++ g :: Wb)) by (apply (teq_rep _ W); auto).
    assert (S : same t (snd g) (snd h) = false) by (unfold same; rewrite Zt, X; simpl; apply andb_false_r).
    split; intros I.
    + apply (earlier_q G (W1 ++ Wa) Wb g h t a1 (a2 ++ B)); auto. apply in_or_app; auto.
    + assert (J := later_q G (W1 ++ Wa) Wb g h t a1 (a2 ++ B) ND2 RP2 I Ogt O S Et). apply in_app_or in J. destruct J as [J|J]; auto. rewrite (Ha h J) in X. discriminate.
Qed.
Lemma insert_end_app : forall A (x : A) L B, insert_end (length B) x (L ++ B) = L ++ x :: B.
Proof.
  intros A x L B. unfold insert_end. rewrite app_length. replace (length L + length B - length B) with (length L) by lia.
  rewrite firstn_app, skipn_app, Nat.sub_diag, firstn_all, skipn_all. simpl. rewrite app_nil_r. auto.
Qed.
Lemma absorb_state : forall st c t g L B Lc Ac, c <> t ->
  ig_remove g (o_gates st t) = Ok (L ++ B) -> ig_remove g (o_gates st c) = Ok Lc -> ig_remove g (o_avail st c) = Ok Ac -> (if o_two st t then [] else o_avail st t) = B ->
  exists st', cz_absorb c t g st = Ok st' /\ o_count st' = 3 + o_count st /\ same_pend st st' /\ o_two st' = o_two st /\
    (forall q, o_gates st' q = if Nat.eqb q t then L ++ (o_count st, Sg t true) :: g :: B ++ [(S (o_count st), Sg t false)] else if Nat.eqb q c then Lc ++ [g; (S (S (o_count st)), Sg c false)] else o_gates st q) /\
    (forall q, o_avail st' q = if Nat.eqb q t then B ++ [(S (o_count st), Sg t false)] else if Nat.eqb q c then Ac ++ [g; (S (S (o_count st)), Sg c false)] else o_avail st q).
Proof.
  intros st c t g L B Lc Ac N Et Ec Ea EB. unfold cz_absorb. set (st0 := if o_two st t then set_avail st (fset (o_avail st) t []) else st).
  assert (F0 : o_avail st0 = fset (o_avail st) t B).
  { unfold st0. destruct (o_two st t); [subst B; auto|]. apply functional_extensionality. intros q. unfold fset. destruct (Nat.eqb_spec q t); subst; auto. }
  assert (F1 : o_gates st0 = o_gates st) by (unfold st0; destruct (o_two st t); auto). assert (F2 : o_count st0 = o_count st) by (unfold st0; destruct (o_two st t); auto).
  assert (F3 : o_two st0 = o_two st) by (unfold st0; destruct (o_two st t); auto). assert (F4 : same_pend st st0) by (unfold st0; destruct (o_two st t); repeat split).
  clearbody st0. unfold gates_rem at 1. rewrite F1, Et. cbn [bind]. unfold gates_rem at 1. cbn [set_gates o_gates]. rewrite fset_other, ?F1, Ec by auto. cbn [bind].
  unfold avail_rem at 1. cbn [set_gates o_avail]. rewrite ?F0, fset_other, Ea by auto. cbn [bind set_avail o_count set_gates tick set_count o_avail]. rewrite (fset_other _ _ c _ t), fset_same by auto.
  assert (NE : (t =? c) = false) by (apply Nat.eqb_neq; auto). assert (NE' : (c =? t) = false) by (apply Nat.eqb_neq; auto).
  destruct (Nat.eqb_spec (length B) 0) as [B0|B0].
  - destruct B; [|discriminate]. eexists. split; [reflexivity|]. destruct F4 as [A1 [A2 [A3 A4]]].
    cbn [gates_app avail_app tick set_count set_gates set_avail o_count o_gates o_avail o_two o_hads o_nots o_zs o_perm]. rewrite F2. split; auto. split; [repeat split; auto|]. split; auto.
    split; intros q; unfold fset; destruct (Nat.eqb_spec q t) as [->|Nt]; rewrite ?Nat.eqb_refl, ?NE, ?NE'; cbn [app]; rewrite ?app_nil_r, <- ?app_assoc; auto;
    destruct (Nat.eqb_spec q c) as [->|Nc]; rewrite ?Nat.eqb_refl, ?NE'; rewrite <- ?app_assoc; auto.
  - eexists. split; [reflexivity|]. destruct F4 as [A1 [A2 [A3 A4]]].
    cbn [gates_app avail_app tick set_count set_gates set_avail o_count o_gates o_avail o_two o_hads o_nots o_zs o_perm]. rewrite F2. split; auto. split; [repeat split; auto|]. split; auto.
    split; intros q; unfold fset; destruct (Nat.eqb_spec q t) as [->|Nt]; rewrite ?Nat.eqb_refl, ?NE, ?NE'; auto.
    + rewrite insert_end_app. change (L ++ (o_count st, Sg t true) :: B) with (L ++ [(o_count st, Sg t true)] ++ B). rewrite (app_assoc L), insert_end_app, <- !app_assoc. auto.
    + destruct (Nat.eqb_spec q c) as [->|Nc]; rewrite ?Nat.eqb_refl, ?NE'; rewrite <- ?app_assoc; auto.
    + destruct (Nat.eqb_spec q c) as [->|Nc]; rewrite ?Nat.eqb_refl, ?NE'; rewrite <- ?app_assoc; auto.
Qed.
Lemma nodup_mid : forall (P R : list igate) (l : list igate), (forall i, In i (map fst (P ++ R)) -> ~ In i (map fst l)) -> NoDup (map fst (P ++ R)) -> NoDup (map fst l) -> NoDup (map fst (P ++ l ++ R)).
Proof.
  intros P R l H N M. apply (Permutation_NoDup (l := map fst l ++ map fst (P ++ R))).
  - rewrite <- map_app. apply Permutation_map. rewrite !app_assoc. apply Permutation_app_tail. apply Permutation_app_comm.
  - clear -H N M. induction l as [|x l IH]; auto. cbn [map app] in *. inversion M; subst. constructor.
    + intros I. apply in_app_or in I. destruct I as [I|I]; [contradiction|]. apply (H (fst x) I). left; auto.
    + apply IH; auto. intros i J K. apply (H i J). right; auto.
Qed.
Lemma nd_pre : forall (P l m R : list igate), NoDup (P ++ (l ++ m) ++ R) -> NoDup (P ++ l ++ R).
Proof.
  induction m as [|x m IH]; intros R N; [rewrite app_nil_r in N; auto|]. apply IH. rewrite <- !app_assoc in N |- *. cbn [app] in N. rewrite !(app_assoc P l) in N |- *. apply NoDup_remove_1 in N. auto.
Qed.
Lemma cz_absorb_ok : forall n st W c t g a1 a2 B, ginv n st W -> c <> t -> c < n -> t < n -> snd g = GCNOT c t -> In g (o_avail st c) ->
  o_gates st t = a1 ++ g :: a2 ++ B -> (forall h, In h a2 -> xt t (snd h) = true) -> (forall h, In h B -> zt t (snd h) = true) -> B = (if o_two st t then [] else o_avail st t) ->
  exists st' W', cz_absorb c t g st = Ok st' /\ ginv n st' W' /\ same_pend st st' /\ forall s, gden (GCZ c t) (tden W s) = tden W' s.
Proof.
  intros n st W c t g a1 a2 B GI N Hc Ht Eg Ic Et Ha HB EB. assert (ND := gi_nd _ _ _ GI). assert (IW := av_w _ _ _ GI c g Ic). assert (NW := gi_ndW _ _ _ GI).
  assert (NQ := gi_ndq _ _ _ GI). assert (RP := gi_rep _ _ _ GI). assert (WW := gi_wg _ _ _ GI).
  assert (NZ : is_zphase g = false) by (unfold is_zphase; rewrite Eg; auto).
  assert (Tc : o_two st c = false).
  { destruct (o_two st c) eqn:T; auto. exfalso. destruct (av_x _ _ _ _ (gi_av _ _ _ GI c) T) as [l1 [l2 [E [H1 H2]]]]. rewrite E in Ic. apply in_app_or in Ic. destruct Ic as [I|I].
    - rewrite (H1 g I) in NZ. discriminate.
    - specialize (H2 g I). rewrite Eg in H2. simpl in H2. apply Nat.eqb_eq in H2. auto. }
  destruct (av_suf _ _ _ _ (gi_av _ _ _ GI c)) as [pc Epc]. destruct (in_split _ _ Ic) as [m1 [m2 Em]].
  assert (Ec : o_gates st c = (pc ++ m1) ++ g :: m2) by (rewrite Epc, Em, <- app_assoc; auto).
  assert (Zc := av_z _ _ _ _ (gi_av _ _ _ GI c) Tc).
  assert (Hm : forall h, In h m2 -> zt c (snd h) = true) by (intros h I; apply Zc; rewrite Em; apply in_or_app; right; right; auto).
  destruct (absorb_split (o_gates st) W g c t a1 a2 B (pc ++ m1) m2) as [P [R [ER [T [Rc [Rt RB]]]]]]; auto.
  assert (NGt := NQ t). rewrite Et in NGt. destruct (nodup_split _ _ _ NGt) as [Na1 Na2].
  assert (ERt : rem g (o_gates st t) = (a1 ++ a2) ++ B) by (rewrite Et, rem_split, app_assoc; auto).
  destruct (absorb_state st c t g (a1 ++ a2) B (rem g (o_gates st c)) (rem g (o_avail st c))) as [st' [Est [Ecnt [SP [E2 [EG EA]]]]]]; auto.
  { transitivity (Ok (rem g (o_gates st t))); [|f_equal; exact ERt]. apply (ig_remove_in W); auto; [intros x; apply (gates_w _ _ _ GI)|rewrite Et; apply in_or_app; right; left; auto]. }
  { apply (ig_remove_in W); auto; [intros x; apply (gates_w _ _ _ GI)|apply (av_in _ _ _ GI); auto]. }
  { apply (ig_remove_in W); auto; [intros x; apply (av_w _ _ _ GI)|apply (av_nd _ _ _ GI)]. }
  set (k := o_count st) in *. set (s1 := (k, Sg t true)) in *. set (s2 := (S k, Sg t false)) in *. set (s3 := (S (S k), Sg c false)) in *.
  exists st', (P ++ [s1; g; s2; s3] ++ R). split; auto.
  assert (LT : forall h, In h (P ++ R) -> fst h < k) by (intros h I; rewrite <- ER in I; apply rem_in in I; apply (gi_lt _ _ _ GI); tauto).
  assert (NgPR : ~ In g (P ++ R)) by (rewrite <- ER; intros I; apply rem_in in I; tauto).
  assert (Ltg : fst g < k) by (apply (gi_lt _ _ _ GI); auto).
  assert (NDPR : NoDup (map fst (P ++ R))).
  { rewrite <- ER. clear -ND. induction W as [|x W IH]; [constructor|]. cbn [map] in ND. inversion ND as [|? ? N1 N2]; subst. unfold rem in *. simpl. destruct (negb (ieq x g)); auto.
    cbn [map]. constructor; auto. intros I. apply N1. apply in_map_iff in I. destruct I as [y [E I]]. apply filter_In in I. apply in_map_iff. exists y. tauto. }
  assert (NgI : ~ In (fst g) (map fst (P ++ R))).
  { intros I. apply in_map_iff in I. destruct I as [h [E I]]. assert (I' := I). rewrite <- ER in I'. apply rem_in in I'. destruct I' as [I1 I2]. apply I2. apply (fst_inj W); auto. }
  assert (WPR : wgs (P ++ R)) by (intros h I; rewrite <- ER in I; apply rem_in in I; apply WW; tauto).
  assert (Os : forall q p kk, onq q (GZ kk p (if true then frac 1 2 else frac 1 2)) = Nat.eqb q p) by (intros; unfold onq; simpl; apply orb_false_r).
  assert (Os1 : forall q, onq q (snd s1) = Nat.eqb q t) by (intros; unfold onq; simpl; apply orb_false_r).
  assert (Os2 : forall q, onq q (snd s2) = Nat.eqb q t) by (intros; unfold onq; simpl; apply orb_false_r).
  assert (Os3 : forall q, onq q (snd s3) = Nat.eqb q c) by (intros; unfold onq; simpl; apply orb_false_r).
  assert (Og : forall q, onq q (snd g) = Nat.eqb q c || Nat.eqb q t) by (intros; rewrite Eg; apply on2).
  assert (NDF : NoDup (map fst (P ++ [s1; g; s2; s3] ++ R))).
  { apply nodup_mid; auto.
    - intros i I J. destruct (proj1 (in_map_iff _ _ _) I) as [h [E Ih]]. specialize (LT h Ih). subst i. cbn [map In fst s1 s2 s3] in J.
      destruct J as [J|[J|[J|[J|[]]]]]; try (cbn [fst] in J; lia). rewrite <- J in I. contradiction.
    - cbn [map fst s1 s2 s3]. repeat constructor; cbn [In]; intros K; repeat (destruct K as [K|K]; try lia); try exact K. }
  assert (NDX : forall l m, [s1; g; s2; s3] = l ++ m -> NoDup (P ++ l ++ R)) by (intros l m E; exact (nd_pre P l m R (eq_ind _ (fun z => NoDup (P ++ z ++ R)) (nodup_fst _ NDF) _ E))).
  split; [|split; auto].
  - split; auto.
    + (* rep *)
      assert (R0 : rep (fun q => rem g (o_gates st q)) (P ++ R)) by (rewrite <- ER; apply rep_rem; auto).
      set (G0 := fun q => rem g (o_gates st q)) in *.
      assert (G0t : G0 t = (a1 ++ a2) ++ B) by exact ERt.
      set (G1 := fset G0 t ((a1 ++ a2) ++ s1 :: B)).
      assert (R1 : rep G1 (P ++ s1 :: R)).
      { apply (rep_insert G0); auto.
        - apply (NDX [] [s1; g; s2; s3]). auto.
        - intros I. apply LT in I. cbn in I. lia.
        - intros q O. rewrite Os1 in O. apply Nat.eqb_neq in O. apply fset_other; auto.
        - intros q O. rewrite Os1 in O. apply Nat.eqb_eq in O. subst q. exists (a1 ++ a2), B. split; auto. split; [apply fset_same|].
          intros b Ob Sb. assert (Zb : zt t (snd b) = false) by (destruct (zt t (snd b)) eqn:Z; auto; rewrite zt_same in Sb; auto; simpl; apply Nat.eqb_refl).
          split; intros I; [rewrite (HB b I) in Zb; discriminate|rewrite (Rt b I Ob) in Zb; discriminate]. }
      set (G2 := fset (fset G1 t ((a1 ++ a2) ++ [s1; g] ++ B)) c (G1 c ++ [g])).
      assert (R2 : rep G2 ((P ++ [s1]) ++ g :: R)).
      { apply (rep_insert G1).
        - rewrite <- app_assoc. apply (NDX [s1] [g; s2; s3]). auto.
        - rewrite <- app_assoc. exact R1.
        - rewrite <- app_assoc. intros I. apply in_app_or in I. destruct I as [I|[I|I]]; [apply NgPR; apply in_or_app; auto| |apply NgPR; apply in_or_app; auto]. rewrite <- I in Ltg. cbn in Ltg. lia.
        - intros q O. rewrite Og in O. apply orb_false_iff in O. rewrite !Nat.eqb_neq in O. destruct O. unfold G2. rewrite !fset_other; auto.
        - intros q O. destruct (Nat.eq_dec q c) as [->|Nc].
          + exists (G1 c), []. split; [symmetry; apply app_nil_r|]. split; [unfold G2; apply fset_same|]. intros b Ob Sb.
            assert (Zb : zt c (snd b) = false) by (destruct (zt c (snd b)) eqn:Z; auto; rewrite zt_same in Sb; auto; rewrite Eg; simpl; apply Nat.eqb_refl).
            split; [intros []|intros I; rewrite (Rc b I Ob) in Zb; discriminate].
          + assert (q = t) by (rewrite Og in O; apply orb_true_iff in O; rewrite !Nat.eqb_eq in O; tauto). subst q.
            exists ((a1 ++ a2) ++ [s1]), B. split; [unfold G1; rewrite fset_same, <- !app_assoc; auto|]. split; [unfold G2; rewrite fset_other, fset_same, <- !app_assoc; auto|].
            intros b Ob Sb. apply RB; auto. destruct (xt t (snd b)) eqn:X; auto. rewrite xt_same in Sb; auto. rewrite Eg; simpl; apply Nat.eqb_refl. }
      set (G3 := fset G2 t (G2 t ++ [s2])).
      assert (R3 : rep G3 ((P ++ [s1; g]) ++ s2 :: R)).
      { apply (rep_insert G2).
        - rewrite <- app_assoc. apply (NDX [s1; g] [s2; s3]). auto.
        - replace ((P ++ [s1; g]) ++ R) with ((P ++ [s1]) ++ g :: R) by (rewrite <- !app_assoc; auto). exact R2.
        - rewrite <- app_assoc. intros I. apply in_app_or in I. destruct I as [I|[I|[I|I]]]; [assert (K := LT s2 (in_or_app _ _ _ (or_introl I)))| |rewrite I in Ltg|assert (K := LT s2 (in_or_app _ _ _ (or_intror I)))]; try (cbn in *; lia). apply (f_equal fst) in I. cbn in I. lia.
        - intros q O. rewrite Os2 in O. apply Nat.eqb_neq in O. apply fset_other; auto.
        - intros q O. rewrite Os2 in O. apply Nat.eqb_eq in O. subst q. exists (G2 t), []. split; [symmetry; apply app_nil_r|]. split; [apply fset_same|].
          intros b Ob Sb. assert (Zb : zt t (snd b) = false) by (destruct (zt t (snd b)) eqn:Z; auto; rewrite zt_same in Sb; auto; simpl; apply Nat.eqb_refl).
          split; intros I; [destruct I|rewrite (Rt b I Ob) in Zb; discriminate]. }
      set (G4 := fset G3 c (G3 c ++ [s3])).
      assert (R4 : rep G4 ((P ++ [s1; g; s2]) ++ s3 :: R)).
      { apply (rep_insert G3).
        - rewrite <- app_assoc. apply (NDX [s1; g; s2] [s3]). auto.
        - replace ((P ++ [s1; g; s2]) ++ R) with ((P ++ [s1; g]) ++ s2 :: R) by (rewrite <- !app_assoc; auto). exact R3.
        - rewrite <- app_assoc. intros I. apply in_app_or in I. destruct I as [I|[I|[I|[I|I]]]]; [assert (K := LT s3 (in_or_app _ _ _ (or_introl I)))| |rewrite I in Ltg| |assert (K := LT s3 (in_or_app _ _ _ (or_intror I)))]; try (cbn in *; lia); apply (f_equal fst) in I; cbn in I; lia.
        - intros q O. rewrite Os3 in O. apply Nat.eqb_neq in O. apply fset_other; auto.
        - intros q O. rewrite Os3 in O. apply Nat.eqb_eq in O. subst q. exists (G3 c), []. split; [symmetry; apply app_nil_r|]. split; [apply fset_same|].
          intros b Ob Sb. assert (Zb : zt c (snd b) = false) by (destruct (zt c (snd b)) eqn:Z; auto; rewrite zt_same in Sb; auto; simpl; apply Nat.eqb_refl).
          split; intros I; [destruct I|rewrite (Rc b I Ob) in Zb; discriminate]. }
      replace (P ++ [s1; g; s2; s3] ++ R) with ((P ++ [s1; g; s2]) ++ s3 :: R) by (rewrite <- !app_assoc; auto).
      apply (rep_ext G4); auto. intros q. rewrite EG. unfold G4, G3, G2, G1. destruct (Nat.eqb_spec q t) as [->|Nt].
      * rewrite (fset_other _ _ c), fset_same, (fset_other _ _ c), fset_same by auto. rewrite <- !app_assoc. auto.
      * destruct (Nat.eqb_spec q c) as [->|Nc].
        -- rewrite fset_same, (fset_other _ _ t), fset_same, (fset_other _ _ t) by auto. rewrite <- app_assoc. auto.
        -- rewrite !fset_other by auto. unfold G0. apply (rem_off _ W); auto. rewrite Og. apply off2; auto.
    + intros h I. rewrite Ecnt. fold k. apply in_app_or in I. destruct I as [I|I]; [assert (K := LT h (in_or_app _ _ _ (or_introl I))); lia|]. apply in_app_or in I.
      destruct I as [[<-|[<-|[<-|[<-|[]]]]]|I]; cbn [fst s1 s2 s3]; try lia. assert (K := LT h (in_or_app _ _ _ (or_intror I))); lia.
    + intros h I. apply in_app_or in I. destruct I as [I|I]; [apply WPR, in_or_app; auto|]. apply in_app_or in I. destruct I as [[<-|[<-|[<-|[<-|[]]]]]|I]; try exact Logic.I; [rewrite Eg; exact N|]. apply WPR, in_or_app; auto.
    + assert (nPR : forall h q, In h (P ++ R) -> onq q (snd h) = true -> q < n) by (intros h q I; rewrite <- ER in I; apply rem_in in I; apply (gi_n _ _ _ GI); tauto).
      intros h q I O. apply in_app_or in I. destruct I as [I|I]; [apply (nPR h); auto; apply in_or_app; auto|]. apply in_app_or in I. destruct I as [[<-|[<-|[<-|[<-|[]]]]]|I]; [| | | |apply (nPR h); auto; apply in_or_app; auto].
      * rewrite Os1 in O. apply Nat.eqb_eq in O. subst. auto.
      * apply (gi_n _ _ _ GI g); auto.
      * rewrite Os2 in O. apply Nat.eqb_eq in O. subst. auto.
      * rewrite Os3 in O. apply Nat.eqb_eq in O. subst. auto.
    + intros q. rewrite EG, EA, E2. destruct (Nat.eqb_spec q t) as [->|Nt]; [|destruct (Nat.eqb_spec q c) as [->|Nc]].
      * split.
        -- exists ((a1 ++ a2) ++ [s1; g]). rewrite <- !app_assoc. auto.
        -- intros T0 h I. apply in_app_or in I. destruct I as [I|[<-|[]]]; auto. simpl. apply Nat.eqb_refl.
        -- intros T0. rewrite T0 in EB. subst B. exists [s2], []. split; auto. split; [|intros h []]. intros h [<-|[]]. auto.
      * rewrite Tc. change [g; s3] with ([g] ++ [s3]). rewrite !app_assoc. apply avok_z; [|simpl; apply Nat.eqb_refl]. apply avok_z; [|rewrite Eg; simpl; apply Nat.eqb_refl].
        rewrite <- Tc at 1. apply avok_rem; auto. apply (gi_av _ _ _ GI).
      * apply (gi_av _ _ _ GI).
  - intros s. assert (WPg : wgs (P ++ g :: R)) by (intros h I; apply (teq_in _ W) in I; [|apply teq_sym; auto]; apply WW; auto).
    rewrite (teq_den W (P ++ g :: R)) by auto. rewrite (tden_app P (g :: R)), (tden_app P ([s1; g; s2; s3] ++ R)).
    change (tden ([s1; g; s2; s3] ++ R) (tden P s)) with (tden R (gden (Sg c false) (gden (Sg t false) (gden (snd g) (gden (Sg t true) (tden P s)))))).
    change (tden (g :: R) (tden P s)) with (tden R (gden (snd g) (tden P s))). rewrite Eg, <- cnot_cz by auto.
    assert (K := pass R (0, GCZ c t) (gden (GCNOT c t) (tden P s))). rewrite tden_app in K. cbn in K. cbn. apply K; auto.
    + intros h I. apply WPR, in_or_app; auto.
    + intros h I [q [A [Bq S]]]. cbn [snd] in *. rewrite on2z in Bq. apply orb_true_iff in Bq. rewrite !Nat.eqb_eq in Bq. destruct Bq as [-> | ->]; rewrite zt_same in S; auto; try discriminate; simpl; rewrite Nat.eqb_refl; auto using orb_true_r.
Qed.
Lemma usable_split : forall n st W c t g, ginv n st W -> c <> t -> In g (o_avail st c) -> cz_usable st c t g = true ->
  snd g = GCNOT c t /\ exists a1 a2 B, o_gates st t = a1 ++ g :: a2 ++ B /\ (forall h, In h a2 -> xt t (snd h) = true) /\ (forall h, In h B -> zt t (snd h) = true) /\ B = (if o_two st t then [] else o_avail st t).
Proof.
  intros n st W c t g GI N Ic U. unfold cz_usable in U. apply andb_true_iff in U. destruct U as [C U].
  assert (Eg : snd g = GCNOT c t) by (unfold is_cnot in C; destruct (snd g); try discriminate; apply andb_true_iff in C; rewrite !Nat.eqb_eq in C; destruct C; subst; auto).
  split; auto. assert (IW := av_w _ _ _ GI c g Ic). assert (ND := gi_nd _ _ _ GI). assert (V := gi_av _ _ _ GI t). destruct (av_suf _ _ _ _ V) as [pre Ep]. destruct (o_two st t) eqn:T.
  - apply (ig_mem_in W) in U; auto; [|intros x; apply (av_w _ _ _ GI)]. destruct (av_x _ _ _ _ V eq_refl) as [l1 [l2 [E [H1 H2]]]].
    rewrite E in U. apply in_app_or in U. destruct U as [I|I]; [specialize (H1 g I); unfold is_zphase in H1; rewrite Eg in H1; discriminate|].
    destruct (in_split _ _ I) as [m1 [m2 Em]]. exists (pre ++ l1 ++ m1), m2, []. rewrite Ep, E, Em, app_nil_r, <- !app_assoc. split; auto. split; [|split; [intros h []|auto]]. intros h J. apply H2. rewrite Em. apply in_or_app. right; right; auto.
  - assert (U' : reach g t (rev pre) = true).
    { unfold upto_end in U. destruct (Nat.eqb (length (o_avail st t)) 0); [discriminate|]. rewrite Ep, app_length in U. replace (length pre + length (o_avail st t) - length (o_avail st t)) with (length pre) in U by lia.
      rewrite firstn_app, Nat.sub_diag, firstn_all, app_nil_r in U. auto. }
    destruct (reach_split W g t (rev pre)) as [a [b [E H]]]; auto.
    { intros x I. apply in_rev in I. apply (gates_w _ _ _ GI t). rewrite Ep. apply in_or_app; auto. }
    assert (Epre : pre = rev b ++ g :: rev a) by (rewrite <- (rev_involutive pre), E, rev_app_distr; simpl; rewrite <- app_assoc; auto).
    exists (rev b), (rev a), (o_avail st t). split; [rewrite Ep, Epre at 1; rewrite <- app_assoc; auto|]. split; [intros h I; apply H; apply in_rev; auto|]. split; auto. apply (av_z _ _ _ _ V eq_refl).
Qed.
Lemma add_cz_ok : forall n st W mz c t, ginv n st W -> c <> t -> c < n -> t < n ->
  exists st' W', add_cz mz c t st = Ok st' /\ ginv n st' W' /\ same_pend st st' /\ forall s, gden (GCZ c t) (tden W s) = tden W' s.
Proof.
  intros n st W mz c t GI N Hc Ht. destruct mz; [|apply cz_plain_ok; auto]. destruct (cz_search st c t) as [[[c' t'] g]|] eqn:E.
  - unfold add_cz. rewrite E. unfold cz_search in E. destruct (find (cz_usable st c t) (o_avail st c)) as [g1|] eqn:F.
    + inversion E; subst c' t' g1. apply find_some in F. destruct F as [I U]. destruct (usable_split n st W c t g) as [Eg [a1 [a2 [B [E1 [E2 [E3 E4]]]]]]]; auto. apply (cz_absorb_ok n st W c t g a1 a2 B); auto.
    + destruct (find (cz_usable st t c) (o_avail st t)) as [g2|] eqn:F2; [|discriminate]. inversion E; subst c' t' g2. apply find_some in F2. destruct F2 as [I U].
      destruct (usable_split n st W t c g) as [Eg [a1 [a2 [B [E1 [E2 [E3 E4]]]]]]]; auto.
      destruct (cz_absorb_ok n st W t c g a1 a2 B) as [st' [W' [A [B' [C D]]]]]; auto. exists st', W'. repeat (split; auto). intros s. rewrite cz_sym. auto.
  - destruct (cz_plain_ok n st W c t) as [st' [W' [A B]]]; auto. exists st', W'. split; auto. rewrite <- A. unfold add_cz. rewrite E. auto.
Qed.

(** ** the postponed gates and the renaming of qubits *)
Record pinv (n : nat) (st : ostate) : Prop := {
  p_h : NoDup (o_hads st); p_n : NoDup (o_nots st); p_z : NoDup (o_zs st);
  p_hn : forall q, In q (o_hads st) -> q < n; p_nn : forall q, In q (o_nots st) -> q < n; p_zn : forall q, In q (o_zs st) -> q < n;
  p_inj : inj (o_perm st); p_id : forall q, n <= q -> o_perm st q = q;
  p_sur : forall q, q < n -> exists i, i < n /\ o_perm st i = q;
  p_lt : forall q, q < n -> o_perm st q < n }.
Definition pend (st : ostate) (u : state) : state := rn (o_perm st) (pau (o_zs st) (o_nots st) (hl (o_hads st) u)).
Lemma same_pend_inv : forall n st st', same_pend st st' -> pinv n st -> pinv n st'.
Proof. intros n st st' [A [B [C D]]] []. split; rewrite ?A, ?B, ?C, ?D; auto. Qed.
Lemma same_pend_den : forall st st' u, same_pend st st' -> pend st' u = pend st u.
Proof. intros st st' u [A [B [C D]]]. unfold pend. rewrite A, B, C, D. auto. Qed.

Definition tau (c t q : nat) : nat := if Nat.eqb q c then t else if Nat.eqb q t then c else q.
Lemma tau_tau : forall c t q, tau c t (tau c t q) = q.
Proof. intros. unfold tau. destruct (Nat.eqb_spec q c) as [->|]; [|destruct (Nat.eqb_spec q t) as [->|]]; [destruct (Nat.eqb_spec t c); auto; rewrite Nat.eqb_refl; auto|rewrite Nat.eqb_refl; auto|]. rewrite !(proj2 (Nat.eqb_neq _ _)); auto. Qed.
Lemma tau_inj : forall c t, inj (tau c t).
Proof. intros c t a b E. rewrite <- (tau_tau c t a), E, tau_tau. auto. Qed.
Lemma swap_rn : forall c t s, gden (GSWAP c t) s = rn (tau c t) s.
Proof.
  intros. apply state_ext. intros x. cbn [gden]. unfold rn. f_equal. apply functional_extensionality. intros q. unfold swapq, upd, tau.
  destruct (Nat.eqb_spec q c), (Nat.eqb_spec q t); subst; auto.
Qed.
Lemma swap_element_spec : forall l c t, NoDup l -> c <> t -> NoDup (swap_element l t c) /\ forall q, nmem q (swap_element l t c) = nmem (tau c t q) l.
Proof.
  intros l c t N D. unfold swap_element. assert (T : forall q, tau c t q = if Nat.eqb q c then t else if Nat.eqb q t then c else q) by auto.
  destruct (nmem t l) eqn:Et, (nmem c l) eqn:Ec; cbn [andb negb].
  - split; auto. intros q. rewrite T. destruct (Nat.eqb_spec q c); [subst; congruence|]. destruct (Nat.eqb_spec q t); [subst; congruence|]. auto.
  - split; [apply nodup_snoc; [apply nremove_nodup; auto|]; intros I; apply nremove_in in I; auto; apply nmem_false in Ec; tauto|].
    intros q. rewrite nmem_app, nmem_one, nremove_mem, T by auto. destruct (Nat.eqb_spec q c) as [->|]; [rewrite Et; apply orb_true_r|]. destruct (Nat.eqb_spec q t) as [->|]; [rewrite Ec; simpl; rewrite andb_false_r; auto|]. simpl. rewrite andb_true_r, orb_false_r. auto.
  - split; [apply nodup_snoc; [apply nremove_nodup; auto|]; intros I; apply nremove_in in I; auto; apply nmem_false in Et; tauto|].
    intros q. rewrite nmem_app, nmem_one, nremove_mem, T by auto. destruct (Nat.eqb_spec q c) as [->|]; [rewrite Et; simpl; rewrite andb_false_r; simpl; apply Nat.eqb_neq; auto|]. destruct (Nat.eqb_spec q t) as [->|]; [rewrite Ec; apply orb_true_r|]. simpl. rewrite andb_true_r, orb_false_r. auto.
  - split; auto. intros q. rewrite T. destruct (Nat.eqb_spec q c); [subst; congruence|]. destruct (Nat.eqb_spec q t); [subst; congruence|]. auto.
Qed.
Lemma hl_perm : forall l l' s, Permutation l l' -> hl l s = hl l' s.
Proof.
  intros l l' s P. revert s. induction P; intros s; auto.
  - unfold hl in *. cbn [map]. rewrite !cden_cons. apply IHP.
  - unfold hl. cbn [map]. rewrite !cden_cons. f_equal. destruct (Nat.eq_dec x y) as [->|]; auto. cbn [gden]. apply op1_comm; auto.
  - rewrite IHP1. auto.
Qed.
Lemma parity_perm : forall l l' x, Permutation l l' -> parity l x = parity l' x.
Proof. intros l l' x P. induction P; auto; simpl; [rewrite IHP; auto|destruct (x y), (x x0), (parity l x); auto|congruence]. Qed.
Lemma parity_map : forall f l x, parity (map f l) x = parity l (fun q => x (f q)).
Proof. induction l as [|a l IH]; intros x; auto. simpl. rewrite IH. auto. Qed.
Lemma hl_rn : forall c t hs u, hl hs (rn (tau c t) u) = rn (tau c t) (hl (map (tau c t) hs) u).
Proof.
  induction hs as [|h hs IH]; intros u; auto. unfold hl in *. cbn [map]. rewrite !cden_cons, <- IH. f_equal. cbn [gden]. rewrite <- rn_op1 by apply tau_inj. rewrite tau_tau. auto.
Qed.
Lemma nmem_map_tau : forall c t q l, nmem q (map (tau c t) l) = nmem (tau c t q) l.
Proof.
  intros. apply eq_true_iff_eq. rewrite !nmem_in, in_map_iff. split; [intros [x [<- I]]; rewrite tau_tau; auto|]. intros I. exists (tau c t q). rewrite tau_tau. auto.
Qed.
Lemma swap_perm : forall l c t, NoDup l -> c <> t -> Permutation (map (tau c t) l) (swap_element l t c).
Proof.
  intros l c t N D. destruct (swap_element_spec l c t N D) as [A B]. apply NoDup_Permutation; auto.
  - clear -N. induction N; cbn [map]; constructor; auto. intros I. apply in_map_iff in I. destruct I as [y [E I]]. apply tau_inj in E. subst. auto.
  - intros q. rewrite <- !nmem_in, nmem_map_tau, B. tauto.
Qed.
Lemma swap_pend : forall pm hs ns zs c t u, c <> t -> NoDup hs -> NoDup ns -> NoDup zs ->
  rn pm (pau zs ns (hl hs (gden (GSWAP c t) u))) =
  rn (fset (fset pm c (pm t)) t (pm c)) (pau (swap_element zs t c) (swap_element ns t c) (hl (swap_element hs t c) u)).
Proof.
  intros pm hs ns zs c t u N Nh Nn Nz. rewrite swap_rn, hl_rn, (hl_perm _ _ _ (swap_perm hs c t Nh N)).
  destruct (swap_element_spec ns c t Nn N) as [_ Bn]. set (v := hl (swap_element hs t c) u). apply state_ext. intros x. unfold rn, pau.
  assert (F : forall q, fset (fset pm c (pm t)) t (pm c) q = pm (tau c t q)).
  { intros q. unfold fset, tau. destruct (Nat.eqb_spec q t) as [->|]; [rewrite (proj2 (Nat.eqb_neq t c)) by auto; auto|]. destruct (Nat.eqb q c); auto. }
  f_equal.
  - f_equal. rewrite <- (parity_perm _ _ _ (swap_perm zs c t Nz N)), parity_map. f_equal. apply functional_extensionality. intros q. rewrite F, tau_tau. auto.
  - f_equal. apply functional_extensionality. intros q. unfold nx. rewrite F, Bn. auto.
Qed.
Lemma swap_pinv : forall n st st' c t, pinv n st -> c <> t -> c < n -> t < n ->
  o_hads st' = swap_element (o_hads st) t c -> o_nots st' = swap_element (o_nots st) t c -> o_zs st' = swap_element (o_zs st) t c ->
  o_perm st' = fset (fset (o_perm st) c (o_perm st t)) t (o_perm st c) -> pinv n st'.
Proof.
  intros n st st' c t [] N Hc Ht E1 E2 E3 E4.
  assert (F : forall q, o_perm st' q = o_perm st (tau c t q)).
  { intros q. rewrite E4. unfold fset, tau. destruct (Nat.eqb_spec q t) as [->|]; [rewrite (proj2 (Nat.eqb_neq t c)) by auto; auto|]. destruct (Nat.eqb q c); auto. }
  assert (TL : forall q, tau c t q < n <-> q < n) by (intros q; unfold tau; destruct (Nat.eqb_spec q c); [subst; tauto|]; destruct (Nat.eqb_spec q t); [subst; tauto|]; tauto).
  assert (M : forall l, NoDup l -> (forall q, In q l -> q < n) -> forall q, In q (swap_element l t c) -> q < n).
  { intros l Nl L q I. destruct (swap_element_spec l c t Nl N) as [_ B]. apply nmem_in in I. rewrite B in I. apply nmem_in in I. apply TL. apply L. exact I. }
  split; rewrite ?E1, ?E2, ?E3.
  - apply swap_element_spec; auto.
  - apply swap_element_spec; auto.
  - apply swap_element_spec; auto.
  - apply M; auto.
  - apply M; auto.
  - apply M; auto.
  - intros a b E. rewrite !F in E. apply p_inj0 in E. apply tau_inj in E. auto.
  - intros q L. assert (K : tau c t q = q) by (unfold tau; rewrite !(proj2 (Nat.eqb_neq q _)); auto; lia). rewrite F, K. auto.
  - intros q L. destruct (p_sur0 q L) as [i [Li Ei]]. exists (tau c t i). rewrite F, tau_tau. split; auto. apply TL; auto.
  - intros q L. rewrite F. apply p_lt0, TL. auto.
Qed.
Lemma add_cnot_ok : forall n st W sw c t, ginv n st W -> pinv n st -> c <> t -> c < n -> t < n ->
  exists st' W', add_cnot sw c t st = Ok st' /\ ginv n st' W' /\ pinv n st' /\ forall s, pend st (gden (GCNOT c t) (tden W s)) = pend st' (tden W' s).
Proof.
  intros n st W sw c t GI PI N Hc Ht.
  assert (PL : forall st1, ginv n st1 W -> same_pend st st1 -> o_two st1 c = false -> exists st' W', cnot_plain c t st1 = Ok st' /\ ginv n st' W' /\ pinv n st' /\ forall s, pend st (gden (GCNOT c t) (tden W s)) = pend st' (tden W' s)).
  { intros st1 G1 S1 T1. destruct (cnot_plain_ok n st1 W c t) as [st' [W' [A [B [C D]]]]]; auto. assert (S := same_pend_trans _ _ _ S1 C). exists st', W'. split; auto. split; auto. split; [apply (same_pend_inv n st); auto|].
    intros s. rewrite D, (same_pend_den st st'); auto. }
  unfold add_cnot. destruct (o_two st c) eqn:T; [|apply PL; auto; apply same_pend_id].
  assert (PR : exists st' W', cnot_plain c t (reset st c false) = Ok st' /\ ginv n st' W' /\ pinv n st' /\ forall s, pend st (gden (GCNOT c t) (tden W s)) = pend st' (tden W' s)).
  { apply PL; [apply ginv_reset; auto|apply reset_pend|apply reset_two]. }
  destruct (o_two st t) eqn:Tt; auto. destruct (find (is_cnot t c) (rev (o_avail st c))) as [g|] eqn:F; auto. destruct (sw && ig_mem g (o_avail st t)) eqn:M; auto.
  apply andb_true_iff in M. destruct M as [_ M]. apply find_some in F. destruct F as [I C]. apply in_rev in I.
  apply (ig_mem_in W) in M; [|apply (gi_nd _ _ _ GI)|apply (av_w _ _ _ GI c); auto|intros x; apply (av_w _ _ _ GI)].
  assert (Eg : snd g = GCNOT t c) by (unfold is_cnot in C; destruct (snd g); try discriminate; apply andb_true_iff in C; rewrite !Nat.eqb_eq in C; destruct C; subst; auto).
  destruct (cnot_swap_ok n st W c t g) as [st' [W' [A [B [E1 [E2 [E3 [E4 D]]]]]]]]; auto. exists st', W'. split; auto. split; auto. split; [apply (swap_pinv n st st' c t); auto|].
  intros s. rewrite D. unfold pend. rewrite E1, E2, E3, E4. apply swap_pend; auto; [apply (p_h _ _ PI)|apply (p_n _ _ PI)|apply (p_z _ _ PI)].
Qed.
