(** One gate at a time: [parse_gate] *)
From Coq Require Import Reals ZArith QArith Qcanon List Bool Arith Lia FunctionalExtensionality Permutation.
From Verif Require Import LinModel PermModel CNum Base ScalarModel ScalarProofs GateModel OptModel GraphSem SumLemmas CircSpec GateProofs GateDecomp GateAdj OptTrace OptSem OptInv OptStep.
Import ListNotations.
Open Scope nat_scope.

Lemma rn_scale : forall pm z s, rn pm (fun x => (z * s x)%C) = fun x => (z * rn pm s x)%C. Proof. reflexivity. Qed.
Lemma pend_scale : forall st z u, pend st (fun x => (z * u x)%C) = fun x => (z * pend st u x)%C.
Proof. intros. unfold pend. rewrite hl_scale, pau_scale, rn_scale. auto. Qed.
(** the result of placing gates: the state [U s] is what the new optimizer state stands for *)
Definition placed (n : nat) (U : state -> state) (r : res ostate) : Prop :=
  exists st' W' z, r = Ok st' /\ ginv n st' W' /\ pinv n st' /\ unitc z /\ forall s, U s = fun x => (z * pend st' (tden W' s) x)%C.
Lemma placed_scale : forall n U V z r, unitc z -> (forall s, U s = fun x => (z * V s x)%C) -> placed n V r -> placed n U r.
Proof.
  intros n U V z r Uz E [st' [W' [z' [A [B [C [D F]]]]]]]. exists st', W', (z * z')%C. split; auto. split; auto. split; auto. split; [apply unit_mult; auto|].
  intros s. rewrite E, F. apply state_ext. intros x. ring.
Qed.
Lemma placed_ext : forall n U V r, (forall s, U s = V s) -> placed n V r -> placed n U r.
Proof. intros n U V r E P. apply (placed_scale n U V C1); auto; [apply unit_1|]. intros s. rewrite E. apply state_ext. intros x. ring. Qed.
Lemma placed_here : forall n U st W, ginv n st W -> pinv n st -> (forall s, U s = pend st (tden W s)) -> placed n U (Ok st).
Proof. intros n U st W G P E. exists st, W, C1. split; auto. split; auto. split; auto. split; [apply unit_1|]. intros s. rewrite E. apply state_ext. intros x. ring. Qed.
(** changing only the postponed gates keeps the placed ones *)
Lemma ginv_same : forall n st st' W, ginv n st W -> o_gates st' = o_gates st -> o_avail st' = o_avail st -> o_two st' = o_two st -> o_count st' = o_count st -> ginv n st' W.
Proof. intros n st st' W [] A B C D. split; rewrite ?A, ?D; auto. intros q. rewrite B, C. auto. Qed.
Lemma ginv_add' : forall n st st' W g, ginv n st W -> ~ In (fst g) (map fst W) -> fst g < o_count st' -> o_count st <= o_count st' -> wg (snd g) -> (forall q, onq q (snd g) = true -> q < n) ->
  (forall q, o_gates st' q = if onq q (snd g) then o_gates st q ++ [g] else o_gates st q) ->
  (forall q, avok q (o_gates st' q) (o_avail st' q) (o_two st' q)) -> ginv n st' (W ++ [g]).
Proof.
  intros n st st' W g GI F L C Wg Hn HG HA. split; auto.
  - apply (rep_app1 (o_gates st)); auto; [apply (gi_ndW _ _ _ GI)|apply (gi_rep _ _ _ GI)|intros I; apply F; apply in_map; auto].
  - rewrite map_app. cbn [map]. apply nodup_snoc; auto. apply (gi_nd _ _ _ GI).
  - intros h I. apply in_app_or in I. destruct I as [I|[<-|[]]]; auto. apply (gi_lt _ _ _ GI) in I. lia.
  - intros h I. apply in_app_or in I. destruct I as [I|[<-|[]]]; auto. apply (gi_wg _ _ _ GI); auto.
  - intros h q I. apply in_app_or in I. destruct I as [I|[<-|[]]]; auto. apply (gi_n _ _ _ GI); auto.
Qed.
Lemma onq_z : forall q k t p, onq q (GZ k t p) = Nat.eqb q t. Proof. intros. unfold onq. simpl. apply orb_false_r. Qed.

(** *** a postponed Hadamard gate is placed *)
Lemma add_hadamard_ok : forall n st W t, ginv n st W -> pinv n st -> In t (o_hads st) ->
  exists st', add_hadamard t st = Ok st' /\ ginv n st' (W ++ [(o_count st, GHAD t)]) /\ pinv n st' /\
    o_hads st' = nremove t (o_hads st) /\ o_nots st' = o_nots st /\ o_zs st' = o_zs st /\ o_perm st' = o_perm st /\
    forall s, hl (o_hads st) (tden W s) = hl (nremove t (o_hads st)) (tden (W ++ [(o_count st, GHAD t)]) s).
Proof.
  intros n st W t GI PI I. unfold add_hadamard, nremove_r. cbn [gates_app tick set_count set_gates o_hads]. rewrite (proj2 (nmem_in t (o_hads st)) I). cbn [bind].
  assert (Hn : t < n) by (apply (p_hn _ _ PI); auto). eexists. split; [reflexivity|]. split; [|split; [|split; [|split; [|split; [|split]]]]]; auto.
  - apply (ginv_add' n st); auto.
    + cbn [fst]. intros J. apply in_map_iff in J. destruct J as [h [E J]]. apply (gi_lt _ _ _ GI) in J. lia.
    + cbn. lia.
    + cbn. lia.
    + cbn [snd]. intros q O. rewrite on_had in O. apply Nat.eqb_eq in O. subst; auto.
    + intros q. cbn [snd]. rewrite on_had. cbn. unfold fset. destruct (Nat.eqb_spec q t); subst; auto.
    + intros q. cbn [gates_app tick reset set_two set_avail set_hads set_gates set_count o_gates o_avail o_two]. unfold fset. destruct (Nat.eqb_spec q t) as [->|Nq]; [apply avok_nil|apply (gi_av _ _ _ GI)].
  - destruct PI. split; cbn [gates_app tick reset set_two set_avail set_hads set_gates set_count o_hads o_nots o_zs o_perm]; auto; [apply nremove_nodup; auto|]. intros q J. apply nremove_in in J; auto. apply p_hn; tauto.
  - intros s. rewrite tden_snoc. apply hl_out; auto. apply (p_h _ _ PI).
Qed.
Lemma add_had_place : forall n st W t, ginv n st W -> pinv n st -> In t (o_hads st) ->
  exists st' W', add_hadamard t st = Ok st' /\ ginv n st' W' /\ pinv n st' /\
    o_hads st' = nremove t (o_hads st) /\ o_nots st' = o_nots st /\ o_zs st' = o_zs st /\ o_perm st' = o_perm st /\
    forall s, hl (o_hads st) (tden W s) = hl (nremove t (o_hads st)) (tden W' s).
Proof. intros n st W t G P I. destruct (add_hadamard_ok n st W t G P I) as [st' [A [B C]]]. exists st', (W ++ [(o_count st, GHAD t)]). auto. Qed.

(** *** Hadamard gates *)
Lemma nremove_snoc : forall t l, ~ In t l -> nremove t (l ++ [t]) = l.
Proof. induction l as [|a l IH]; intros H; [simpl; rewrite Nat.eqb_refl; auto|]. simpl. rewrite (proj2 (Nat.eqb_neq a t)) by (intros ->; apply H; left; auto). rewrite IH; auto. intros K; apply H; right; auto. Qed.
Lemma snoc_in : forall (l : list nat) t n q, (forall q, In q l -> q < n) -> t < n -> In q (l ++ [t]) -> q < n.
Proof. intros l t n q H L I. apply in_app_or in I. destruct I as [I|[<-|[]]]; auto. Qed.
Lemma had_paulis : forall n st t, pinv n st -> t < n ->
  let st1 := if nmem t (o_nots st) && negb (nmem t (o_zs st)) then set_zs (set_nots st (nremove t (o_nots st))) (o_zs st ++ [t])
            else if nmem t (o_zs st) && negb (nmem t (o_nots st)) then set_nots (set_zs st (nremove t (o_zs st))) (o_nots st ++ [t])
            else st in
  o_gates st1 = o_gates st /\ o_avail st1 = o_avail st /\ o_two st1 = o_two st /\ o_count st1 = o_count st /\ o_hads st1 = o_hads st /\ o_perm st1 = o_perm st /\ pinv n st1 /\
  exists z, unitc z /\ forall s, gden (GHAD t) (pau (o_zs st) (o_nots st) s) = fun x => (z * pau (o_zs st1) (o_nots st1) (gden (GHAD t) s) x)%C.
Proof.
  intros n st t PI Ht. destruct (nmem t (o_nots st)) eqn:En, (nmem t (o_zs st)) eqn:Ez; cbn [andb negb].
  - cbn. do 6 (split; auto). split; auto. apply pau_had; auto; try apply (p_z _ _ PI); try apply (p_n _ _ PI); congruence.
  - cbn [set_zs set_nots o_gates o_avail o_two o_count o_hads o_perm o_zs o_nots]. do 6 (split; auto). assert (Nz : ~ In t (o_zs st)) by (apply nmem_false; auto). split.
    + destruct PI. split; cbn [set_zs set_nots o_hads o_perm o_zs o_nots]; auto; [apply nremove_nodup; auto|apply nodup_snoc; auto| |].
      * intros q J. apply nremove_in in J; auto. apply p_nn; tauto.
      * intros q. apply snoc_in; auto.
    + apply pau_had; try apply (p_z _ _ PI); try apply (p_n _ _ PI).
      * apply nodup_snoc; auto. apply (p_z _ _ PI).
      * apply nremove_nodup. apply (p_n _ _ PI).
      * intros q Nq. rewrite nremove_mem by apply (p_n _ _ PI). rewrite (proj2 (Nat.eqb_neq q t) Nq). apply andb_true_r.
      * rewrite nremove_mem by apply (p_n _ _ PI). rewrite Nat.eqb_refl. simpl. rewrite andb_false_r. auto.
      * rewrite nmem_app, nmem_one, Nat.eqb_refl, orb_true_r. auto.
      * intros x. rewrite nremove_snoc, nremove_out; auto.
  - cbn [set_zs set_nots o_gates o_avail o_two o_count o_hads o_perm o_zs o_nots]. do 6 (split; auto). assert (Nn : ~ In t (o_nots st)) by (apply nmem_false; auto). split.
    + destruct PI. split; cbn [set_zs set_nots o_hads o_perm o_zs o_nots]; auto; [apply nodup_snoc; auto|apply nremove_nodup; auto| |].
      * intros q. apply snoc_in; auto.
      * intros q J. apply nremove_in in J; auto. apply p_zn; tauto.
    + apply pau_had; try apply (p_z _ _ PI); try apply (p_n _ _ PI).
      * apply nremove_nodup. apply (p_z _ _ PI).
      * apply nodup_snoc; auto. apply (p_n _ _ PI).
      * intros q Nq. rewrite nmem_app, nmem_one, (proj2 (Nat.eqb_neq q t) Nq). apply orb_false_r.
      * rewrite nmem_app, nmem_one, Nat.eqb_refl, orb_true_r. auto.
      * rewrite nremove_mem by apply (p_z _ _ PI). rewrite Nat.eqb_refl. simpl. rewrite andb_false_r. auto.
      * intros x. rewrite (nremove_out t (nremove t (o_zs st))); auto. intros J. apply nremove_in in J; [tauto|apply (p_z _ _ PI)].
  - cbn. do 6 (split; auto). split; auto. apply pau_had; auto; try apply (p_z _ _ PI); try apply (p_n _ _ PI); congruence.
Qed.
Lemma hl_had : forall hs t u, NoDup hs -> gden (GHAD t) (hl hs u) = hl hs (gden (GHAD t) u).
Proof.
  intros hs t u N. destruct (nmem t hs) eqn:E.
  - apply nmem_in in E. rewrite (hl_in hs t), had_had by auto. rewrite (hl_out hs t), had_had by auto. auto.
  - apply hl_comm; [exact I|]. intros q Q. rewrite on_had. apply Nat.eqb_neq. intros ->. apply nmem_false in E. auto.
Qed.
Lemma rem_last : forall g l, ~ In g l -> rem g (l ++ [g]) = l.
Proof. intros g l N. rewrite rem_app, rem_self, app_nil_r, rem_out; auto. Qed.
Lemma rn_had : forall pm t s, inj pm -> gden (GHAD (pm t)) (rn pm s) = rn pm (gden (GHAD t) s).
Proof. intros. cbn [gden]. apply rn_op1; auto. Qed.
Lemma hsh_place : forall n st W t i2 k t2 p ih th r k', ginv n st W -> rev (o_gates st t) = (i2, GZ k t2 p) :: (ih, GHAD th) :: r -> GateModel.qden p = 2%positive ->
  let g2 := (i2, GZ k t2 p) in let g2' := (i2, GZ k' t2 (qmod2 (- p)%Qc)) in let zp := (o_count st, ZPhase t (qmod2 (- p)%Qc)) in let h := (ih, GHAD th) in
  let st0 := set_gates (tick st) (fset (o_gates st) t (rev r ++ [zp; h; g2'])) in
  let st' := set_avail st0 (fset (o_avail st) t (map (fun x => if ig_eqb x g2 then g2' else x) (o_avail st t))) in
  exists W' z, ginv n st' W' /\ unitc z /\ forall s, gden (GHAD t) (tden W s) = fun x => (z * tden W' s x)%C.
Proof.
  intros n st W t i2 k t2 p ih th r k' GI ER Q2 g2 g2' zp h st0 st'.
  assert (EG : o_gates st t = rev r ++ [h; g2]) by (rewrite <- (rev_involutive (o_gates st t)), ER; simpl; rewrite <- app_assoc; auto).
  assert (RP := gi_rep _ _ _ GI). assert (NQ := gi_ndq _ _ _ GI). assert (ND := gi_nd _ _ _ GI).
  assert (I2 : In g2 (o_gates st t)) by (rewrite EG; apply in_or_app; right; right; left; auto).
  assert (Ih : In h (o_gates st t)) by (rewrite EG; apply in_or_app; right; left; auto).
  assert (t2 = t) by (assert (O := rep_on _ _ RP t g2 I2); cbn [snd g2] in O; rewrite onq_z in O; apply Nat.eqb_eq in O; auto).
  assert (th = t) by (assert (O := rep_on _ _ RP t h Ih); cbn [snd h] in O; rewrite on_had in O; apply Nat.eqb_eq in O; auto). subst t2 th.
  assert (J2 := gates_w _ _ _ GI t g2 I2). assert (Jh := gates_w _ _ _ GI t h Ih).
  assert (Hn : t < n) by (apply (gi_n _ _ _ GI g2); auto; cbn [snd g2]; rewrite onq_z; apply Nat.eqb_refl).
  assert (Nt := NQ t). rewrite EG in Nt. assert (E1 : rev r ++ [h; g2] = (rev r ++ [h]) ++ [g2]) by (rewrite <- app_assoc; auto). rewrite E1 in Nt.
  assert (N2 : ~ In g2 (rev r ++ [h])) by (apply (nodup_split (rev r ++ [h]) [] g2) in Nt; tauto).
  assert (Nh : ~ In h (rev r)) by (apply NoDup_remove_1 in Nt; rewrite app_nil_r in Nt; apply (nodup_split (rev r) [] h) in Nt; tauto).
  (* without g2 *)
  set (sa := set_gates (set_avail st (fset (o_avail st) t [])) (fun q => rem g2 (o_gates st q))).
  assert (Off : forall q g, q <> t -> gate_qubits (snd g) = [t] -> ~ In g (o_gates st q)) by (intros q g Nq Eg K; apply (rep_on _ _ RP) in K; unfold onq in K; rewrite Eg in K; simpl in K; rewrite orb_false_r in K; apply Nat.eqb_eq in K; auto).
  assert (Ga : ginv n sa (rem g2 W)).
  { apply (ginv_rem n st); auto. intros q. unfold sa. cbn [set_gates set_avail o_gates o_avail o_two]. unfold fset. destruct (Nat.eqb_spec q t) as [->|Nq]; [apply avok_nil|]. apply avok_off; [apply (gi_av _ _ _ GI)|apply Off; auto]. }
  assert (Ea : o_gates sa t = rev r ++ [h]) by (unfold sa; cbn [set_gates o_gates]; rewrite EG, E1, rem_last; auto).
  set (sb := set_gates sa (fun q => rem h (o_gates sa q))).
  assert (Jha : In h (rem g2 W)) by (apply rem_in; split; auto; discriminate).
  assert (Gb : ginv n sb (rem h (rem g2 W))).
  { apply (ginv_rem n sa); auto. intros q. unfold sb. cbn [set_gates set_avail o_gates o_avail o_two]. destruct (Nat.eq_dec q t) as [->|Nq]; [unfold sa; cbn [set_gates set_avail o_gates o_avail o_two]; rewrite fset_same; apply avok_nil|].
    apply avok_off; [apply (gi_av _ _ _ Ga)|]. unfold sa. cbn [set_gates o_gates]. intros K. apply rem_in in K. apply (Off q h); tauto. }
  set (W0 := rem h (rem g2 W)) in *.
  assert (Eb : o_gates sb t = rev r) by (unfold sb; cbn [set_gates o_gates]; rewrite Ea, rem_last; auto).
  assert (Eq : forall q, q <> t -> o_gates sb q = o_gates st q) by (intros q Nq; unfold sb, sa; cbn [set_gates set_avail o_gates]; rewrite (rem_out g2) by (apply Off; auto); apply rem_out; apply Off; auto).
  assert (D1 : forall s, tden W s = gden (snd g2) (gden (GHAD t) (tden W0 s))).
  { intros s. rewrite (last_den n st W g2 s GI J2).
    - f_equal. apply (last_den n sa _ h); auto. intros q O. cbn [snd h] in O. rewrite on_had in O. apply Nat.eqb_eq in O. subst q. exists (rev r), []. split; [exact Ea|intros x []].
    - intros q O. cbn [snd g2] in O. rewrite onq_z in O. apply Nat.eqb_eq in O. subst q. exists (rev r ++ [h]), []. split; [rewrite EG, E1; auto|intros x []]. }
  (* zp, h, g2' *)
  assert (Fr : forall i, (i = i2 \/ i = ih) -> ~ In i (map fst W0)).
  { intros i Hi K. apply in_map_iff in K. destruct K as [x [Ex K]]. unfold W0 in K. apply rem_in in K. destruct K as [K K1]. apply rem_in in K. destruct K as [K K2]. destruct Hi as [-> | ->]; [apply K2|apply K1]; apply (fst_inj W); auto. }
  assert (Nih : ih <> i2) by (intros E; assert (K : h = g2) by (apply (fst_inj W); auto); discriminate).
  set (sc := set_gates (tick sb) (fset (o_gates sb) t (rev r ++ [zp]))).
  assert (Gc : ginv n sc (W0 ++ [zp])).
  { apply (ginv_add' n sb); auto.
    - cbn [fst zp]. intros K. apply in_map_iff in K. destruct K as [x [Ex K]]. apply (gi_lt _ _ _ Gb) in K. cbn in K. rewrite Ex in K. lia.
    - cbn. lia.
    - cbn. lia.
    - cbn [snd zp]. intros q O. unfold ZPhase in O. rewrite onq_z in O. apply Nat.eqb_eq in O. subst; auto.
    - intros q. cbn [snd zp]. unfold ZPhase. rewrite onq_z. unfold sc. cbn [set_gates tick set_count o_gates]. unfold fset. destruct (Nat.eqb_spec q t) as [->|]; auto. rewrite Eb. auto.
    - intros q. unfold sc. cbn [set_gates tick set_count o_gates o_avail o_two]. unfold fset. destruct (Nat.eqb_spec q t) as [->|]; [|apply (gi_av _ _ _ Gb)].
      unfold sb, sa. cbn [set_gates set_avail o_avail]. rewrite fset_same. apply avok_nil. }
  set (sd := set_gates sc (fset (o_gates sc) t (rev r ++ [zp; h]))).
  assert (Gd : ginv n sd ((W0 ++ [zp]) ++ [h])).
  { apply (ginv_add' n sc); auto.
    - rewrite map_app. intros K. apply in_app_or in K. destruct K as [K|[K|[]]]; [apply (Fr ih); auto|]. cbn in K. apply (gi_lt _ _ _ GI) in Jh. cbn in Jh. lia.
    - cbn. apply (gi_lt _ _ _ GI) in Jh. cbn in Jh. lia.
    - exact Logic.I.
    - cbn [snd h]. intros q O. rewrite on_had in O. apply Nat.eqb_eq in O. subst; auto.
    - intros q. cbn [snd h]. rewrite on_had. unfold sd, sc. cbn [set_gates tick set_count o_gates]. unfold fset. destruct (Nat.eqb_spec q t) as [->|]; auto. rewrite <- app_assoc. auto.
    - intros q. unfold sd. cbn [set_gates tick set_count o_gates o_avail o_two]. unfold fset. destruct (Nat.eqb_spec q t) as [->|]; [|apply (gi_av _ _ _ Gc)].
      unfold sc, sb, sa. cbn [set_gates set_avail tick set_count o_avail]. rewrite fset_same. apply avok_nil. }
  assert (AV : o_avail st t = [] \/ o_avail st t = [g2]).
  { destruct (av_suf _ _ _ _ (gi_av _ _ _ GI t)) as [pre Ep]. destruct (o_avail st t) as [|x l] eqn:EA using rev_ind; auto. clear IHl. right.
    rewrite EG, E1, app_assoc in Ep. apply app_inj_tail in Ep. destruct Ep as [Ep <-]. f_equal. destruct l as [|y l] using rev_ind; auto. clear IHl. exfalso.
    rewrite app_assoc in Ep. apply app_inj_tail in Ep. destruct Ep as [_ <-]. assert (V := gi_av _ _ _ GI t). rewrite EA in V. destruct (o_two st t).
    - destruct (av_x _ _ _ _ V eq_refl) as [l1 [l2 [E [H1 H2]]]]. assert (K : In h (l1 ++ l2)) by (rewrite <- E; apply in_or_app; left; apply in_or_app; right; left; auto). apply in_app_or in K. destruct K as [K|K]; [apply H1 in K|apply H2 in K]; discriminate.
    - assert (K := av_z _ _ _ _ V eq_refl h). discriminate K. apply in_or_app; left; apply in_or_app; right; left; auto. }
  assert (Ge : ginv n st' (((W0 ++ [zp]) ++ [h]) ++ [g2'])).
  { apply (ginv_add' n sd); auto.
    - rewrite !map_app. intros K. apply in_app_or in K. destruct K as [K|[K|[]]]; [|cbn in K; congruence]. apply in_app_or in K. destruct K as [K|[K|[]]]; [apply (Fr i2); auto|]. cbn in K. apply (gi_lt _ _ _ GI) in J2. cbn in J2. lia.
    - cbn. apply (gi_lt _ _ _ GI) in J2. cbn in J2. lia.
    - exact Logic.I.
    - cbn [snd g2']. intros q O. rewrite onq_z in O. apply Nat.eqb_eq in O. subst; auto.
    - intros q. cbn [snd g2']. rewrite onq_z. unfold st', st0, sd, sc. cbn [set_gates set_avail tick set_count o_gates]. unfold fset. destruct (Nat.eqb_spec q t) as [->|]; [rewrite <- app_assoc; auto|]. symmetry. apply Eq; auto.
    - intros q. unfold st', st0. cbn [set_gates set_avail tick set_count o_gates o_avail o_two]. unfold fset. destruct (Nat.eqb_spec q t) as [->|]; [|apply (gi_av _ _ _ GI)].
      destruct AV as [-> | ->]; [apply avok_nil|]. cbn [map]. rewrite ig_eqb_refl. split.
      + exists (rev r ++ [zp; h]). rewrite <- app_assoc. auto.
      + intros _ x [<-|[]]. cbn. apply Nat.eqb_refl.
      + intros _. exists [g2'], []. split; auto. split; [intros x [<-|[]]; auto|intros x []]. }
  destruct (hsh t k k' KZPhase p Q2) as [z [Uz HS]]. exists (((W0 ++ [zp]) ++ [h]) ++ [g2']), z. split; auto. split; auto.
  intros s. rewrite D1. rewrite !tden_snoc. cbn [snd g2 g2' h zp]. unfold ZPhase. apply HS.
Qed.
Lemma parse_had_ok : forall n st W t, ginv n st W -> pinv n st -> t < n ->
  placed n (fun s => gden (GHAD (o_perm st t)) (pend st (tden W s))) (Ok (parse_had t st)).
Proof.
  intros n st W t GI PI Ht. destruct (had_paulis n st t PI Ht) as [E1 [E2 [E3 [E4 [E5 [E6 [P1 [z [Uz HZ]]]]]]]]]. unfold parse_had.
  set (st1 := if nmem t (o_nots st) && negb (nmem t (o_zs st)) then _ else _) in *. clearbody st1.
  assert (G1 : ginv n st1 W) by (apply (ginv_same n st); auto).
  apply (placed_scale n _ (fun s => pend st1 (gden (GHAD t) (tden W s))) z); auto.
  { intros s. unfold pend. rewrite rn_had by apply (p_inj _ _ PI). rewrite HZ, rn_scale, E5, E6, hl_had by apply (p_h _ _ PI). auto. }
  assert (TG : placed n (fun s => pend st1 (gden (GHAD t) (tden W s))) (Ok (set_hads st1 (toggle_element (o_hads st1) t)))).
  { apply (placed_here n _ _ W).
    - apply (ginv_same n st1); auto.
    - destruct P1. split; cbn [set_hads o_hads o_nots o_zs o_perm]; auto; [apply toggle_nodup; auto|]. intros q J. apply nmem_in in J. rewrite toggle_mem in J by auto. destruct (Nat.eqb_spec q t); [subst; auto|]. rewrite xorb_false_r in J. apply p_hn, nmem_in; auto.
    - intros s. unfold pend. cbn [set_hads o_hads o_nots o_zs o_perm]. rewrite <- hl_toggle, hl_had by apply (p_h _ _ P1). auto. }
  destruct (rev (o_gates st1 t)) as [|[i2 g2] l] eqn:ER; auto. destruct g2; auto. destruct l as [|[ih h] r]; auto. destruct h; auto.
  match goal with |- context [Pos.eqb ?a 2] => destruct (Pos.eqb_spec a 2) as [Q2|]; auto end.
  match goal with |- context [(i2, GZ ?k' ?a (qmod2 ?b))] => destruct (hsh_place n st1 W t i2 _ _ _ ih _ r k' G1 ER Q2) as [W' [z' [G' [Uz' HS]]]] end.
  eexists _, W', z'. split; [reflexivity|]. split; [exact G'|]. split; [destruct P1; split; auto|]. split; auto.
  intros s. rewrite HS, pend_scale. auto.
Qed.

(** *** phase gates *)
Lemma gden_z0 : forall k t s, gden (GZ k t 0%Qc) s = s.
Proof. intros. rewrite gden_z. apply state_ext. intros x. rewrite cexp_0. destruct (x t); ring. Qed.
Lemma gden_z_class : forall k k' t p s, gden (GZ k t p) s = gden (GZ k' t p) s. Proof. intros. rewrite !gden_z. auto. Qed.
Lemma gden_zz : forall k k' k2 t p q s, gden (GZ k t p) (gden (GZ k' t q) s) = gden (GZ k2 t (qmod2 (p + q)%Qc)) s.
Proof. intros. rewrite !gden_z. apply state_ext. intros x. rewrite cexp_qmod2, cexp_add. destruct (x t); ring. Qed.
Lemma pau_z_in : forall k t zs ns, exists z, unitc z /\ forall s, pau zs ns (gden (GZ k t 1%Qc) s) = fun x => (z * pau (toggle_element zs t) ns s x)%C.
Proof.
  intros k t zs ns. exists (sgn (nmem t ns)). split; [apply unit_sgn|]. intros s. rewrite gden_z. apply state_ext. intros x. unfold pau. rewrite parity_toggle, cexp_1, sgn_x.
  unfold nx at 1. destruct (x t), (nmem t ns); unfold sgn; simpl; ring.
Qed.
Lemma hl_z : forall k hs t p u, ~ In t hs -> hl hs (gden (GZ k t p) u) = gden (GZ k t p) (hl hs u).
Proof. intros. symmetry. apply hl_comm; [exact I|]. intros q Q. rewrite onq_z. apply Nat.eqb_neq. intros ->. auto. Qed.
Lemma rn_z : forall pm k t p s, inj pm -> gden (GZ k (pm t) p) (rn pm s) = rn pm (gden (GZ k t p) s).
Proof. intros. rewrite !gden_z. reflexivity. Qed.
Lemma toggle_lt : forall n l t, NoDup l -> (forall q, In q l -> q < n) -> t < n -> forall q, In q (toggle_element l t) -> q < n.
Proof. intros n l t N H Ht q J. apply nmem_in in J. rewrite toggle_mem in J by auto. destruct (Nat.eqb_spec q t); [subst; auto|]. rewrite xorb_false_r in J. apply H, nmem_in; auto. Qed.
Lemma pinv_zs : forall n st zs, pinv n st -> NoDup zs -> (forall q, In q zs -> q < n) -> pinv n (set_zs st zs).
Proof. intros n st zs [] N L. split; auto. Qed.
Lemma pinv_nots : forall n st zs, pinv n st -> NoDup zs -> (forall q, In q zs -> q < n) -> pinv n (set_nots st zs).
Proof. intros n st zs [] N L. split; auto. Qed.
(** a phase gate placed where no Hadamard gate is pending *)
Lemma zphase_one : forall n st W k t p, ginv n st W -> pinv n st -> t < n -> ~ In t (o_hads st) -> p = 1%Qc ->
  placed n (fun s => pend st (gden (GZ k t p) (tden W s))) (Ok (set_zs st (toggle_element (o_zs st) t))).
Proof.
  intros n st W k t p GI PI Ht NH ->. destruct (pau_z_in k t (o_zs st) (o_nots st)) as [z [Uz HZ]].
  apply (placed_scale n _ (fun s => pend (set_zs st (toggle_element (o_zs st) t)) (tden W s)) z); auto.
  - intros s. unfold pend. cbn [set_zs o_hads o_nots o_zs o_perm]. rewrite hl_z by auto. rewrite HZ, rn_scale. auto.
  - apply (placed_here n _ _ W); auto; [apply (ginv_same n st); auto|]. apply pinv_zs; auto; [apply toggle_nodup, (p_z _ _ PI)|]. apply toggle_lt; auto; [apply (p_z _ _ PI)|apply (p_zn _ _ PI)].
Qed.
Lemma add_phase_ok : forall n st W t p, ginv n st W -> t < n -> o_two st t = false ->
  ginv n (add_gate t (ZPhase t p) st) (W ++ [(o_count st, ZPhase t p)]).
Proof.
  intros n st W t p GI Ht T. apply (ginv_add n st); auto.
  - exact I.
  - cbn [snd]. unfold ZPhase. intros q O. rewrite onq_z in O. apply Nat.eqb_eq in O. subst; auto.
  - intros q. cbn [snd]. unfold ZPhase. rewrite onq_z. cbn [add_gate avail_app gates_app tick set_count set_gates set_avail o_gates]. unfold fset. destruct (Nat.eqb_spec q t) as [->|]; auto.
  - intros q. cbn [add_gate avail_app gates_app tick set_count set_gates set_avail o_gates o_avail o_two]. unfold fset. assert (V := gi_av _ _ _ GI q). destruct (Nat.eqb_spec q t) as [->|]; auto.
    rewrite T in *. apply avok_z; auto. cbn. apply Nat.eqb_refl.
Qed.
Lemma place_phase : forall n st W k t p, ginv n st W -> pinv n st -> t < n -> ~ In t (o_hads st) ->
  placed n (fun s => pend st (gden (GZ k t p) (tden W s)))
   match (if o_two st t then None else find is_zphase (o_avail st t)) with
   | Some (i2, GZ k t2 p2) =>
       let g2 := (i2, GZ k t2 p2) in
       let* st := avail_rem st t g2 in
       let* st := gates_rem st t g2 in
       let ph := qmod2 (p + p2)%Qc in
       if qeqb ph 1%Qc then Ok (set_zs st (toggle_element (o_zs st) t))
       else if qeqb ph 0%Qc then Ok st
       else Ok (add_gate t (ZPhase t ph) st)
   | _ =>
       let st := if o_two st t then reset st t false else st in
       Ok (add_gate t (ZPhase t p) st)
   end.
Proof.
  intros n st W k t p GI PI Ht NH.
  assert (PL : placed n (fun s => pend st (gden (GZ k t p) (tden W s))) (let st := if o_two st t then reset st t false else st in Ok (add_gate t (ZPhase t p) st))).
  { set (st1 := if o_two st t then reset st t false else st). assert (G1 : ginv n st1 W) by (unfold st1; destruct (o_two st t); auto using ginv_reset).
    assert (T1 : o_two st1 t = false) by (unfold st1; destruct (o_two st t) eqn:E; auto; apply reset_two). assert (S1 : same_pend st st1) by (unfold st1; destruct (o_two st t); repeat split). clearbody st1. cbv zeta.
    apply (placed_here n _ _ (W ++ [(o_count st1, ZPhase t p)])); [apply add_phase_ok; auto|apply (same_pend_inv n st); auto|].
    intros s. rewrite (same_pend_den st (add_gate t (ZPhase t p) st1)) by exact S1. rewrite tden_snoc. cbn [snd]. unfold ZPhase. rewrite (gden_z_class k KZPhase). auto. }
  destruct (o_two st t) eqn:T; auto. destruct (find is_zphase (o_avail st t)) as [[i2 g2]|] eqn:F; auto. destruct g2 as [k2 t2 p2| | | | | | | | | | | | | | | | | | | | | | | | | ]; auto.
  apply find_some in F. destruct F as [I2 _]. cbv zeta. set (g2 := (i2, GZ k2 t2 p2)) in *. assert (RP := gi_rep _ _ _ GI). assert (IG := av_in _ _ _ GI t g2 I2). assert (IW := av_w _ _ _ GI t g2 I2).
  assert (t2 = t) by (assert (O := rep_on _ _ RP t g2 IG); cbn [snd g2] in O; rewrite onq_z in O; apply Nat.eqb_eq in O; auto). subst t2.
  unfold avail_rem, gates_rem. rewrite (ig_remove_in W g2 (o_avail st t)); auto; [|apply (gi_nd _ _ _ GI)|intros x; apply (av_w _ _ _ GI)|apply (av_nd _ _ _ GI)]. cbn [bind set_avail o_gates].
  rewrite (ig_remove_in W g2 (o_gates st t)); auto; [|apply (gi_nd _ _ _ GI)|intros x; apply (gates_w _ _ _ GI)|apply (gi_ndq _ _ _ GI)]. cbn [bind].
  set (st1 := set_gates (set_avail st (fset (o_avail st) t (rem g2 (o_avail st t)))) (fset (o_gates st) t (rem g2 (o_gates st t)))).
  assert (Off : forall q, q <> t -> ~ In g2 (o_gates st q)) by (intros q Nq K; apply (rep_on _ _ RP) in K; cbn [snd g2] in K; rewrite onq_z in K; apply Nat.eqb_eq in K; auto).
  assert (G1 : ginv n st1 (rem g2 W)).
  { apply (ginv_rem n st); auto.
    - intros q. unfold st1. cbn [set_gates set_avail o_gates]. unfold fset. destruct (Nat.eqb_spec q t) as [->|]; auto. rewrite rem_out; auto.
    - intros q. unfold st1. cbn [set_gates set_avail o_gates o_avail o_two]. unfold fset. assert (V := gi_av _ _ _ GI q). destruct (Nat.eqb_spec q t) as [->|]; auto. apply avok_rem; auto. apply (gi_ndq _ _ _ GI). }
  assert (D : forall s, gden (GZ k t p) (tden W s) = gden (GZ KZPhase t (qmod2 (p + p2)%Qc)) (tden (rem g2 W) s)).
  { intros s. rewrite (last_den n st W g2 s GI IW); [cbn [snd g2]; apply gden_zz|]. intros q O. cbn [snd g2] in O. rewrite onq_z in O. apply Nat.eqb_eq in O. subst q.
    destruct (avok_last _ _ _ _ g2 (gi_av _ _ _ GI t) I2) as [l1 [l2 [E [H _]]]]; [rewrite T; discriminate|]. exists l1, l2. auto. }
  assert (S1 : same_pend st st1) by (repeat split). assert (P1 : pinv n st1) by (apply (same_pend_inv n st); auto). assert (T1 : o_two st1 t = false) by exact T. assert (N1 : ~ In t (o_hads st1)) by exact NH. clearbody st1.
  apply (placed_ext n _ (fun s => pend st1 (gden (GZ KZPhase t (qmod2 (p + p2)%Qc)) (tden (rem g2 W) s)))); [intros s; rewrite D; symmetry; apply same_pend_den; auto|].
  destruct (qeqb (qmod2 (p + p2)%Qc) 1%Qc) eqn:Q1; [apply qeqb_eq in Q1; apply zphase_one; auto|]. destruct (qeqb (qmod2 (p + p2)%Qc) 0%Qc) eqn:Q0.
  - apply qeqb_eq in Q0. rewrite Q0. apply (placed_here n _ _ (rem g2 W)); auto. intros s. rewrite gden_z0. auto.
  - apply (placed_here n _ _ (rem g2 W ++ [(o_count st1, ZPhase t (qmod2 (p + p2)%Qc))])); [apply add_phase_ok; auto|apply (same_pend_inv n st1); auto; repeat split|].
    intros s. rewrite tden_snoc. cbn [snd]. symmetry. apply same_pend_den. repeat split.
Qed.
Lemma parse_zphase_ok : forall n st W k t p, ginv n st W -> pinv n st -> t < n ->
  placed n (fun s => gden (GZ k (o_perm st t) p) (pend st (tden W s))) (parse_zphase t p st).
Proof.
  intros n st W k t p GI PI Ht. destruct (pau_phase k KZPhase t p (o_zs st) (o_nots st) (p_z _ _ PI)) as [z [Uz HZ]]. unfold parse_zphase.
  set (p1 := if nmem t (o_zs st) then qmod2 (p + 1)%Qc else p) in *.
  set (st1 := if nmem t (o_zs st) then set_zs st (nremove t (o_zs st)) else st).
  set (zs1 := if nmem t (o_zs st) then nremove t (o_zs st) else o_zs st) in *.
  assert (E : st1 = set_zs st zs1) by (unfold st1, zs1; destruct (nmem t (o_zs st)); auto; destruct st; auto).
  assert (P1 : pinv n st1). { rewrite E. apply pinv_zs; auto; unfold zs1; destruct (nmem t (o_zs st)); try apply (p_z _ _ PI); try apply (p_zn _ _ PI); [apply nremove_nodup, (p_z _ _ PI)|]. intros q J. apply nremove_in in J; [|apply (p_z _ _ PI)]. apply (p_zn _ _ PI); tauto. }
  assert (G1 : ginv n st1 W) by (rewrite E; apply (ginv_same n st); auto).
  assert (Ez : o_zs st1 = zs1) by (rewrite E; auto). assert (En : o_nots st1 = o_nots st) by (rewrite E; auto). assert (Eh : o_hads st1 = o_hads st) by (rewrite E; auto). assert (Ep : o_perm st1 = o_perm st) by (rewrite E; auto).
  clearbody st1. rewrite <- En in HZ. set (p2 := if nmem t (o_nots st1) then qmod2 (- p1)%Qc else p1) in *.
  apply (placed_scale n _ (fun s => rn (o_perm st1) (pau (o_zs st1) (o_nots st1) (gden (GZ KZPhase t p2) (hl (o_hads st1) (tden W s))))) z); auto.
  { intros s. unfold pend. rewrite rn_z by apply (p_inj _ _ PI). rewrite <- En, HZ, rn_scale, Ep, Eh, Ez. auto. }
  destruct (qeqb p1 0%Qc) eqn:Q0.
  { apply qeqb_eq in Q0. assert (E2 : p2 = 0%Qc) by (unfold p2; rewrite Q0; destruct (nmem t (o_nots st1)); reflexivity). rewrite E2. apply (placed_here n _ _ W); auto. intros s. rewrite gden_z0. auto. }
  destruct (qeqb p2 1%Qc) eqn:Q1.
  { apply qeqb_eq in Q1. rewrite Q1. destruct (pau_z_in KZPhase t (o_zs st1) (o_nots st1)) as [z2 [Uz2 HZ2]].
    apply (placed_scale n _ (fun s => pend (set_zs st1 (toggle_element (o_zs st1) t)) (tden W s)) z2); auto.
    - intros s. rewrite HZ2, rn_scale. auto.
    - apply (placed_here n _ _ W); auto; [apply (ginv_same n st1); auto|]. apply pinv_zs; auto; [apply toggle_nodup, (p_z _ _ P1)|]. apply toggle_lt; auto; [apply (p_z _ _ P1)|apply (p_zn _ _ P1)]. }
  destruct (nmem t (o_hads st1)) eqn:MH.
  - apply nmem_in in MH. destruct (add_had_place n st1 W t G1 P1 MH) as [st2 [W2 [A [G2 [P2 [B1 [B2 [B3 [B4 D]]]]]]]]]. rewrite A. cbn [bind].
    assert (NH : ~ In t (o_hads st2)) by (rewrite B1; intros J; apply nremove_in in J; [tauto|apply (p_h _ _ P1)]).
    apply (placed_ext n _ (fun s => pend st2 (gden (GZ KZPhase t p2) (tden W2 s)))); [|apply place_phase; auto].
    intros s. unfold pend. rewrite hl_z by auto. rewrite B2, B3, B4, D, B1. auto.
  - cbn [bind]. apply nmem_false in MH. apply (placed_ext n _ (fun s => pend st1 (gden (GZ KZPhase t p2) (tden W s)))); [|apply place_phase; auto].
    intros s. unfold pend. rewrite hl_z by auto. auto.
Qed.

(** *** CZ and CNOT gates *)
Lemma placed_cz : forall n st W mz a b, ginv n st W -> pinv n st -> a <> b -> a < n -> b < n ->
  placed n (fun s => pend st (gden (GCZ a b) (tden W s))) (if Nat.ltb b a then add_cz mz b a st else add_cz mz a b st).
Proof.
  intros n st W mz a b GI PI N Ha Hb.
  assert (K : forall c t, c <> t -> c < n -> t < n -> placed n (fun s => pend st (gden (GCZ c t) (tden W s))) (add_cz mz c t st)).
  { intros c t Nct Hc Ht. destruct (add_cz_ok n st W mz c t) as [st' [W' [A [B [C D]]]]]; auto. exists st', W', C1. split; auto. split; auto. split; [apply (same_pend_inv n st); auto|]. split; [apply unit_1|].
    intros s. rewrite D, (same_pend_den st st') by auto. apply state_ext. intros x. ring. }
  destruct (Nat.ltb b a); auto. apply (placed_ext n _ (fun s => pend st (gden (GCZ b a) (tden W s)))); auto. intros s. rewrite cz_sym. auto.
Qed.
Lemma placed_cnot : forall n st W sw c t, ginv n st W -> pinv n st -> c <> t -> c < n -> t < n -> placed n (fun s => pend st (gden (GCNOT c t) (tden W s))) (add_cnot sw c t st).
Proof.
  intros n st W sw c t GI PI N Hc Ht. destruct (add_cnot_ok n st W sw c t) as [st' [W' [A [B [C D]]]]]; auto. exists st', W', C1. split; auto. split; auto. split; auto. split; [apply unit_1|].
  intros s. rewrite D. apply state_ext. intros x. ring.
Qed.
Lemma cz_in : forall n st W mz sw t1 t2, ginv n st W -> pinv n st -> t1 <> t2 -> t1 < n -> t2 < n ->
  placed n (fun s => rn (o_perm st) (pau (o_zs st) (o_nots st) (gden (GCZ t1 t2) (hl (o_hads st) (tden W s)))))
    (let* st := if nmem t1 (o_hads st) && nmem t2 (o_hads st) then let* st := add_hadamard t1 st in add_hadamard t2 st else Ok st in
     if negb (nmem t1 (o_hads st)) && negb (nmem t2 (o_hads st)) then
       if Nat.ltb t2 t1 then add_cz mz t2 t1 st else add_cz mz t1 t2 st
     else if nmem t1 (o_hads st) then add_cnot sw t2 t1 st
     else add_cnot sw t1 t2 st).
Proof.
  intros n st W mz sw t1 t2 GI PI N H1 H2. assert (NH := p_h _ _ PI). destruct (nmem t1 (o_hads st)) eqn:M1, (nmem t2 (o_hads st)) eqn:M2; cbn [andb].
  - apply nmem_in in M1, M2. destruct (add_had_place n st W t1 GI PI M1) as [sa [Wa [A [Ga [Pa [A1 [A2 [A3 [A4 DA]]]]]]]]]. rewrite A. cbn [bind].
    assert (M2' : In t2 (o_hads sa)) by (rewrite A1; apply nremove_in; auto).
    destruct (add_had_place n sa Wa t2 Ga Pa M2') as [sb [Wb [B [Gb [Pb [B1 [B2 [B3 [B4 DB]]]]]]]]]. rewrite B. cbn [bind].
    assert (NHa := p_h _ _ Pa).
    assert (E1 : nmem t1 (o_hads sb) = false) by (rewrite B1, nremove_mem by auto; rewrite A1, nremove_mem by auto; rewrite Nat.eqb_refl, andb_false_r; auto).
    assert (E2 : nmem t2 (o_hads sb) = false) by (rewrite B1, nremove_mem by auto; rewrite Nat.eqb_refl, andb_false_r; auto).
    rewrite E1, E2. cbn [negb andb]. apply (placed_ext n _ (fun s => pend sb (gden (GCZ t1 t2) (tden Wb s)))); [|apply placed_cz; auto].
    intros s. unfold pend. assert (K := hl_cz (o_hads sb) t1 t2 (tden Wb s) (p_h _ _ Pb) N). rewrite E1, E2 in K. rewrite <- K. rewrite B2, B3, B4, A2, A3, A4, DA, <- A1, DB, <- B1. auto.
  - cbn [bind]. rewrite M1, M2. cbn [negb andb]. apply (placed_ext n _ (fun s => pend st (gden (GCNOT t2 t1) (tden W s)))); [|apply placed_cnot; auto].
    intros s. rewrite hl_cz, M1, M2 by auto. auto.
  - cbn [bind]. rewrite M1, M2. cbn [negb andb]. apply (placed_ext n _ (fun s => pend st (gden (GCNOT t1 t2) (tden W s)))); [|apply placed_cnot; auto].
    intros s. rewrite hl_cz, M1, M2 by auto. auto.
  - cbn [bind]. rewrite M1, M2. cbn [negb andb]. apply (placed_ext n _ (fun s => pend st (gden (GCZ t1 t2) (tden W s)))); [|apply placed_cz; auto].
    intros s. rewrite hl_cz, M1, M2 by auto. auto.
Qed.
Lemma parse_cz_ok : forall n st W mz sw a b, ginv n st W -> pinv n st -> a <> b -> a < n -> b < n ->
  placed n (fun s => gden (GCZ (o_perm st a) (o_perm st b)) (pend st (tden W s))) (parse_cz mz sw a b st).
Proof.
  intros n st W mz sw a b GI PI N Ha Hb. destruct (pau_cz a b (o_zs st) (o_nots st)) as [z [Uz HZ]]. unfold parse_cz.
  set (st1 := if nmem a (o_nots st) then set_zs st (toggle_element (o_zs st) b) else st). set (st2 := if nmem b (o_nots st1) then set_zs st1 (toggle_element (o_zs st1) a) else st1).
  set (zs1 := if nmem a (o_nots st) then toggle_element (o_zs st) b else o_zs st) in *. set (zs2 := if nmem b (o_nots st) then toggle_element zs1 a else zs1) in *.
  assert (E1 : st1 = set_zs st zs1) by (unfold st1, zs1; destruct (nmem a (o_nots st)); auto; destruct st; auto).
  assert (E2 : st2 = set_zs st zs2) by (unfold st2, zs2; rewrite E1; cbn [set_zs o_nots o_zs]; destruct (nmem b (o_nots st)); auto).
  assert (N1 : NoDup zs1 /\ forall q, In q zs1 -> q < n) by (unfold zs1; destruct (nmem a (o_nots st)); split; try apply (p_z _ _ PI); try apply (p_zn _ _ PI); [apply toggle_nodup, (p_z _ _ PI)|apply toggle_lt; auto; [apply (p_z _ _ PI)|apply (p_zn _ _ PI)]]).
  assert (N2 : NoDup zs2 /\ forall q, In q zs2 -> q < n) by (destruct N1; unfold zs2; destruct (nmem b (o_nots st)); split; auto; [apply toggle_nodup; auto|apply toggle_lt; auto]).
  rewrite E2. clear E1 E2 st1 st2. apply (placed_scale n _ (fun s => rn (o_perm (set_zs st zs2)) (pau (o_zs (set_zs st zs2)) (o_nots (set_zs st zs2)) (gden (GCZ a b) (hl (o_hads (set_zs st zs2)) (tden W s))))) z); auto.
  - intros s. unfold pend. rewrite rn_cz by apply (p_inj _ _ PI). rewrite HZ, rn_scale. auto.
  - apply cz_in; auto; [apply (ginv_same n st); auto|apply pinv_zs; tauto].
Qed.
Lemma parse_cnot_ok : forall n st W mz sw c t, ginv n st W -> pinv n st -> c <> t -> c < n -> t < n ->
  placed n (fun s => gden (GCNOT (o_perm st c) (o_perm st t)) (pend st (tden W s))) (parse_cnot mz sw c t st).
Proof.
  intros n st W mz sw c t GI PI N Hc Ht. assert (HZ := pau_cnot c t (o_zs st) (o_nots st) N (p_n _ _ PI)). cbv zeta in HZ. specialize (HZ (p_z _ _ PI)). unfold parse_cnot.
  set (st1 := if nmem c (o_nots st) then set_nots st (toggle_element (o_nots st) t) else st). set (st2 := if nmem t (o_zs st1) then set_zs st1 (toggle_element (o_zs st1) c) else st1).
  set (ns1 := if nmem c (o_nots st) then toggle_element (o_nots st) t else o_nots st) in *. set (zs1 := if nmem t (o_zs st) then toggle_element (o_zs st) c else o_zs st) in *.
  assert (E1 : st1 = set_nots st ns1) by (unfold st1, ns1; destruct (nmem c (o_nots st)); auto; destruct st; auto).
  assert (E2 : st2 = set_zs (set_nots st ns1) zs1) by (unfold st2, zs1; rewrite E1; cbn [set_nots o_zs]; destruct (nmem t (o_zs st)); auto).
  assert (N1 : NoDup ns1 /\ forall q, In q ns1 -> q < n) by (unfold ns1; destruct (nmem c (o_nots st)); split; try apply (p_n _ _ PI); try apply (p_nn _ _ PI); [apply toggle_nodup, (p_n _ _ PI)|apply toggle_lt; auto; [apply (p_n _ _ PI)|apply (p_nn _ _ PI)]]).
  assert (N2 : NoDup zs1 /\ forall q, In q zs1 -> q < n) by (unfold zs1; destruct (nmem t (o_zs st)); split; try apply (p_z _ _ PI); try apply (p_zn _ _ PI); [apply toggle_nodup, (p_z _ _ PI)|apply toggle_lt; auto; [apply (p_z _ _ PI)|apply (p_zn _ _ PI)]]).
  assert (G2 : ginv n st2 W) by (rewrite E2; apply (ginv_same n st); auto). assert (P2 : pinv n st2) by (rewrite E2; apply pinv_zs; try tauto; apply pinv_nots; tauto).
  assert (Eh : o_hads st2 = o_hads st) by (rewrite E2; auto).
  apply (placed_ext n _ (fun s => rn (o_perm st2) (pau (o_zs st2) (o_nots st2) (gden (GCNOT c t) (hl (o_hads st2) (tden W s)))))).
  { intros s. unfold pend. rewrite rn_cnot by apply (p_inj _ _ PI). rewrite HZ, E2. auto. }
  clearbody st2. clear E2 E1 st1 HZ. assert (NH := p_h _ _ P2).
  destruct (nmem c (o_hads st2)) eqn:Mc, (nmem t (o_hads st2)) eqn:Mt; cbn [andb negb].
  - apply (placed_ext n _ (fun s => pend st2 (gden (GCNOT t c) (tden W s)))); [|apply placed_cnot; auto]. intros s. rewrite hl_cnot, Mc, Mt by auto. auto.
  - apply nmem_in in Mc. destruct (add_had_place n st2 W c G2 P2 Mc) as [sa [Wa [A [Ga [Pa [A1 [A2 [A3 [A4 DA]]]]]]]]]. rewrite A. cbn [bind].
    assert (F1 : nmem c (o_hads sa) = false) by (rewrite A1, nremove_mem by auto; rewrite Nat.eqb_refl, andb_false_r; auto).
    assert (F2 : nmem t (o_hads sa) = false) by (rewrite A1, nremove_mem by auto; rewrite Mt; auto).
    apply (placed_ext n _ (fun s => pend sa (gden (GCNOT c t) (tden Wa s)))); [|apply placed_cnot; auto].
    intros s. unfold pend. assert (K := hl_cnot (o_hads sa) c t (tden Wa s) (p_h _ _ Pa) N). rewrite F1, F2 in K. rewrite <- K. rewrite A2, A3, A4, DA, <- A1. auto.
  - apply (placed_ext n _ (fun s => pend st2 (gden (GCZ c t) (tden W s)))); [intros s; rewrite hl_cnot, Mc, Mt by auto; auto|].
    assert (K := placed_cz n st2 W mz c t G2 P2 N Hc Ht). replace (add_cz mz (if c <? t then c else t) (if t <? c then c else t) st2) with (if t <? c then add_cz mz t c st2 else add_cz mz c t st2); auto.
    destruct (Nat.ltb_spec t c), (Nat.ltb_spec c t); auto; lia.
  - apply (placed_ext n _ (fun s => pend st2 (gden (GCNOT c t) (tden W s)))); [|apply placed_cnot; auto]. intros s. rewrite hl_cnot, Mc, Mt by auto. auto.
Qed.

(** the gates that the optimizer takes *)
Definition ogate (n : nat) (g : gate) : Prop :=
  match g with
  | GZ _ t _ | GHAD t => t < n
  | GX KNOT t p => t < n /\ p = 1%Qc
  | GCNOT c t | GCZ c t => c < n /\ t < n /\ c <> t
  | _ => False
  end.
Lemma perm_inv_ok : forall n st q, pinv n st -> q < n -> exists i, perm_inv n st q = Ok i /\ i < n /\ o_perm st i = q.
Proof.
  intros n st q PI Hq. unfold perm_inv. destruct (find (fun i => Nat.eqb (o_perm st i) q) (seq 0 n)) as [i|] eqn:F.
  - apply find_some in F. destruct F as [I E]. apply in_seq in I. apply Nat.eqb_eq in E. exists i. repeat split; auto. lia.
  - exfalso. destruct (p_sur _ _ PI q Hq) as [i [L E]]. assert (K := find_none _ _ F i). cbn in K. rewrite E, Nat.eqb_refl in K. discriminate K. apply in_seq. lia.
Qed.
Lemma rn_not : forall pm t s, inj pm -> gden (NOTg (pm t)) (rn pm s) = rn pm (gden (NOTg t) s).
Proof. intros. unfold NOTg. cbn [gden]. apply rn_op1; auto. Qed.
Lemma parse_gate_ok : forall n st W mz sw g, ginv n st W -> pinv n st -> ogate n g ->
  placed n (fun s => gden g (pend st (tden W s))) (parse_gate n mz sw st g).
Proof.
  intros n st W mz sw g GI PI O. unfold parse_gate. destruct g as [k t p|k t p| |t|c t|c t| | | | | | | | | | | | | | | | | | | | ]; try (exfalso; exact O); cbn [gate_target bind]; simpl in O.
  - destruct (perm_inv_ok n st t PI O) as [i [-> [Hi <-]]]. cbn [bind]. apply parse_zphase_ok; auto.
  - destruct k; try (exfalso; exact O). destruct O as [O ->]. destruct (perm_inv_ok n st t PI O) as [i [-> [Hi <-]]]. cbn [bind].
    destruct (pau_not i (o_zs st) (o_nots st) (p_n _ _ PI)) as [z [Uz HZ]].
    apply (placed_scale n _ (fun s => pend (set_nots st (toggle_element (o_nots st) i)) (tden W s)) z); auto.
    + intros s. unfold pend. cbn [set_nots o_perm o_zs o_nots o_hads]. rewrite <- rn_scale. rewrite <- HZ. apply rn_not. apply (p_inj _ _ PI).
    + apply (placed_here n _ _ W); auto; [apply (ginv_same n st); auto|]. apply pinv_nots; auto; [apply toggle_nodup, (p_n _ _ PI)|]. apply toggle_lt; auto; [apply (p_n _ _ PI)|apply (p_nn _ _ PI)].
  - destruct (perm_inv_ok n st t PI O) as [i [-> [Hi <-]]]. cbn [bind]. apply parse_had_ok; auto.
  - destruct O as [Oc [Ot N]]. destruct (perm_inv_ok n st t PI Ot) as [i [-> [Hi <-]]]. cbn [bind]. destruct (perm_inv_ok n st c PI Oc) as [j [-> [Hj <-]]]. cbn [bind]. apply parse_cnot_ok; try (intros ->; auto); auto.
  - destruct O as [Oc [Ot N]]. destruct (perm_inv_ok n st t PI Ot) as [i [-> [Hi <-]]]. cbn [bind]. destruct (perm_inv_ok n st c PI Oc) as [j [-> [Hj <-]]]. cbn [bind]. apply parse_cz_ok; auto; try (intros ->; auto); auto.
Qed.
Lemma parse_gates_ok : forall n mz sw gs st W, ginv n st W -> pinv n st -> Forall (ogate n) gs ->
  placed n (fun s => cden gs (pend st (tden W s))) (foldM (parse_gate n mz sw) gs st).
Proof.
  induction gs as [|g gs IH]; intros st W GI PI F.
  - cbn. apply (placed_here n _ _ W); auto.
  - inversion F as [|? ? F1 F2]; subst. destruct (parse_gate_ok n st W mz sw g GI PI F1) as [st' [W' [z [A [B [C [D E]]]]]]]. cbn [foldM]. rewrite A. cbn [bind].
    apply (placed_scale n _ (fun s => cden gs (pend st' (tden W' s))) z); auto. intros s. rewrite cden_cons, E, cden_scale. auto.
Qed.
