(** What holds of the optimizer's state during a pass; placing CZ and CNOT gates *)
From Coq Require Import Reals ZArith QArith Qcanon List Bool Arith Lia FunctionalExtensionality Permutation.
From Verif Require Import LinModel PermModel CNum Base ScalarModel ScalarProofs GateModel OptModel GraphSem SumLemmas CircSpec GateProofs GateDecomp GateAdj OptTrace OptSem.
Import ListNotations.
Open Scope nat_scope.

(** ** available gates of one qubit: [L] all gates, [A] the available ones, [b] whether availty is 2 *)
Record avok (q : nat) (L A : list igate) (b : bool) : Prop := {
  av_suf : exists pre, L = pre ++ A;
  av_z : b = false -> forall g, In g A -> zt q (snd g) = true;
  av_x : b = true -> exists l1 l2, A = l1 ++ l2 /\ (forall g, In g l1 -> is_zphase g = true) /\ forall g, In g l2 -> xt q (snd g) = true }.
Lemma avok_nil : forall q L b, avok q L [] b.
Proof. intros. split; [exists L; rewrite app_nil_r; auto|intros _ g []|intros _; exists [], []; repeat split; intros g []]. Qed.
Lemma avok_z : forall q L A g, avok q L A false -> zt q (snd g) = true -> avok q (L ++ [g]) (A ++ [g]) false.
Proof.
  intros q L A g [[pre E] Z _] H. split.
  - exists pre. rewrite E, app_assoc. auto.
  - intros _ h I. apply in_app_or in I. destruct I as [I|[<-|[]]]; auto.
  - discriminate.
Qed.
Lemma avok_x : forall q L A g, avok q L A true -> xt q (snd g) = true -> avok q (L ++ [g]) (A ++ [g]) true.
Proof.
  intros q L A g [[pre E] _ X] H. split.
  - exists pre. rewrite E, app_assoc. auto.
  - discriminate.
  - intros _. destruct (X eq_refl) as [l1 [l2 [-> [H1 H2]]]]. exists l1, (l2 ++ [g]). rewrite app_assoc. repeat split; auto.
    intros h I. apply in_app_or in I. destruct I as [I|[<-|[]]]; auto.
Qed.
Lemma nodup_app_out : forall (a b : list igate) g, NoDup (a ++ b) -> In g b -> ~ In g a.
Proof. induction a as [|x a IH]; intros b g N I; [auto|]. inversion N; subst. intros [->|J]; [apply H1; apply in_or_app; auto|apply (IH b g); auto]. Qed.
Lemma avok_rem : forall q L A b g, NoDup L -> avok q L A b -> In g A -> avok q (rem g L) (rem g A) b.
Proof.
  intros q L A b g N [[pre E] Z X] I. split.
  - exists pre. rewrite E, rem_app, (rem_out g pre); auto. rewrite E in N. apply (nodup_app_out pre A); auto.
  - intros B h J. apply rem_in in J. apply Z; tauto.
  - intros B. destruct (X B) as [l1 [l2 [-> [H1 H2]]]]. exists (rem g l1), (rem g l2). rewrite rem_app. repeat split; auto; intros h J; apply rem_in in J; [apply H1|apply H2]; tauto.
Qed.
Lemma avok_off : forall q L A b g, avok q L A b -> ~ In g L -> avok q (rem g L) A b.
Proof. intros q L A b g V N. rewrite rem_out; auto. Qed.
(** behind an available gate only commuting gates follow *)
Lemma avok_last : forall q L A b g, avok q L A b -> In g A -> (b = true -> is_zphase g = false) ->
  exists l1 l2, L = l1 ++ g :: l2 /\ (forall h, In h l2 -> same q (snd g) (snd h) = true) /\ same q (snd g) (snd g) = true.
Proof.
  intros q L A b g [[pre E] Z X] I H. destruct b.
  - destruct (X eq_refl) as [l1 [l2 [EA [H1 H2]]]]. rewrite EA in I. apply in_app_or in I. destruct I as [I|I]; [specialize (H1 g I); rewrite (H eq_refl) in H1; discriminate|].
    assert (K : forall h, In h l2 -> same q (snd g) (snd h) = true) by (intros h J; unfold same; rewrite (H2 g I), (H2 h J); apply orb_true_r).
    destruct (in_split _ _ I) as [m1 [m2 ->]]. exists (pre ++ l1 ++ m1), m2. split; [rewrite E, EA; rewrite <- !app_assoc; auto|]. split; [|apply K; auto].
    intros h J. apply K. apply in_or_app. right; right; auto.
  - assert (K : forall h, In h A -> same q (snd g) (snd h) = true) by (intros h J; unfold same; rewrite (Z eq_refl g I), (Z eq_refl h J); auto).
    destruct (in_split _ _ I) as [m1 [m2 EA]]. exists (pre ++ m1), m2. split; [rewrite E, EA; rewrite <- !app_assoc; auto|]. split; [|apply K; auto].
    intros h J. apply K. rewrite EA. apply in_or_app. right; right; auto.
Qed.

(** ** the invariant *)
Record ginv (n : nat) (st : ostate) (W : list igate) : Prop := {
  gi_rep : rep (o_gates st) W;
  gi_nd : NoDup (map fst W);
  gi_lt : forall g, In g W -> fst g < o_count st;
  gi_wg : wgs W;
  gi_n : forall g q, In g W -> onq q (snd g) = true -> q < n;
  gi_av : forall q, avok q (o_gates st q) (o_avail st q) (o_two st q) }.
Lemma nodup_fst : forall W : list igate, NoDup (map fst W) -> NoDup W.
Proof. intros W. apply NoDup_map_inv. Qed.
Lemma fst_inj : forall (W : list igate) a b, NoDup (map fst W) -> In a W -> In b W -> fst a = fst b -> a = b.
Proof.
  induction W as [|x W IH]; intros a b N A B E; [destruct A|]. cbn [map] in N. inversion N as [|? ? N1 N2]; subst.
  destruct A as [<-|A], B as [<-|B]; auto; exfalso; apply N1; [rewrite E|rewrite <- E]; apply in_map; auto.
Qed.
Lemma ig_eqb_refl : forall a, ig_eqb a a = true.
Proof. intros [i g]. unfold ig_eqb. cbn [fst snd]. rewrite Nat.eqb_refl. cbn [andb]. unfold gate_eqb. destruct g; try (match goal with |- (if ?d then _ else _) = _ => destruct d; congruence end). rewrite !Nat.eqb_refl. auto. Qed.
Lemma ig_eqb_in : forall W a b, NoDup (map fst W) -> In a W -> In b W -> (ig_eqb a b = true <-> a = b).
Proof.
  intros W a b N A B. split; [|intros ->; apply ig_eqb_refl]. intros E. unfold ig_eqb in E. apply andb_true_iff in E. destruct E as [E _]. apply Nat.eqb_eq in E. apply (fst_inj W); auto.
Qed.
Lemma ig_mem_in : forall W g l, NoDup (map fst W) -> In g W -> (forall x, In x l -> In x W) -> (ig_mem g l = true <-> In g l).
Proof.
  intros W g l N G L. unfold ig_mem. rewrite existsb_exists. split.
  - intros [x [I E]]. apply (ig_eqb_in W) in E; auto. subst. auto.
  - intros I. exists g. split; auto. apply ig_eqb_refl.
Qed.
Lemma ig_remove_in : forall W g l, NoDup (map fst W) -> In g W -> (forall x, In x l -> In x W) -> NoDup l -> In g l -> ig_remove g l = Ok (rem g l).
Proof.
  intros W g l N G. induction l as [|x l IH]; intros L ND I; [destruct I|]. inversion ND as [|? ? N1 N2]; subst. cbn [ig_remove].
  change (rem g (x :: l)) with (rem g ([x] ++ l)). rewrite rem_app. destruct (ig_eqb x g) eqn:E.
  - apply (ig_eqb_in W) in E; auto; [|apply L; left; auto]. subst x. rewrite rem_self, rem_out; auto.
  - assert (Nx : x <> g) by (intros ->; rewrite ig_eqb_refl in E; discriminate). destruct I as [I|I]; [congruence|].
    rewrite IH; auto; [|intros; apply L; right; auto]. cbn [bind]. rewrite (rem_out g [x]); auto. intros [K|[]]. congruence.
Qed.
Section G.
  Variables (n : nat) (st : ostate) (W : list igate).
  Hypothesis GI : ginv n st W.
  Lemma gi_ndW : NoDup W. Proof. apply nodup_fst, (gi_nd _ _ _ GI). Qed.
  Lemma gi_ndq : forall q, NoDup (o_gates st q). Proof. intros. apply (rep_nodup _ W); [apply (gi_rep _ _ _ GI)|apply gi_ndW]. Qed.
  Lemma av_in : forall q g, In g (o_avail st q) -> In g (o_gates st q).
  Proof. intros q g I. destruct (av_suf _ _ _ _ (gi_av _ _ _ GI q)) as [pre ->]. apply in_or_app; auto. Qed.
  Lemma gates_w : forall q g, In g (o_gates st q) -> In g W. Proof. intros q g. apply (rep_in_w _ _ _ _ (gi_rep _ _ _ GI)). Qed.
  Lemma av_w : forall q g, In g (o_avail st q) -> In g W. Proof. intros q g I. apply (gates_w q), av_in, I. Qed.
  Lemma av_nd : forall q, NoDup (o_avail st q).
  Proof. intros q. assert (N := gi_ndq q). destruct (av_suf _ _ _ _ (gi_av _ _ _ GI q)) as [pre E]. rewrite E in N. clear -N. induction pre; auto. inversion N; auto. Qed.
  Lemma gates_rem_ok : forall q g, In g (o_gates st q) -> gates_rem st q g = Ok (set_gates st (fset (o_gates st) q (rem g (o_gates st q)))).
  Proof. intros q g I. unfold gates_rem. rewrite (ig_remove_in W); auto; [apply (gi_nd _ _ _ GI)|apply (gates_w q); auto|apply gates_w|apply gi_ndq]. Qed.
  Lemma fresh : forall g, fst g = o_count st -> ~ In g W.
  Proof. intros g E I. apply (gi_lt _ _ _ GI) in I. lia. Qed.
  Lemma new_nd : forall g, fst g = o_count st -> NoDup (map fst (W ++ [g])).
  Proof.
    intros g E. rewrite map_app. cbn [map]. apply nodup_snoc; [apply (gi_nd _ _ _ GI)|]. intros I. apply in_map_iff in I. destruct I as [h [E2 I]]. apply (gi_lt _ _ _ GI) in I. lia.
  Qed.
End G.
Lemma same_pend_refl : forall (P : Prop), P -> P. Proof. auto. Qed.
(** the postponed gates and the permutation are the same *)
Definition same_pend (st st' : ostate) : Prop :=
  o_hads st' = o_hads st /\ o_nots st' = o_nots st /\ o_zs st' = o_zs st /\ o_perm st' = o_perm st.

(** *** adding a gate at the end *)
Lemma ginv_add : forall n st st' W g, ginv n st W -> fst g = o_count st -> o_count st' = S (o_count st) -> wg (snd g) -> (forall q, onq q (snd g) = true -> q < n) ->
  (forall q, o_gates st' q = if onq q (snd g) then o_gates st q ++ [g] else o_gates st q) ->
  (forall q, avok q (o_gates st' q) (o_avail st' q) (o_two st' q)) -> ginv n st' (W ++ [g]).
Proof.
  intros n st st' W g GI F C Wg Hn HG HA. split; auto.
  - apply (rep_app1 (o_gates st)); auto; [apply (gi_ndW _ _ _ GI)|apply (gi_rep _ _ _ GI)|apply (fresh _ _ _ GI); auto].
  - apply (new_nd _ _ _ GI); auto.
  - intros h I. apply in_app_or in I. rewrite C. destruct I as [I|[<-|[]]]; [apply (gi_lt _ _ _ GI) in I|]; lia.
  - intros h I. apply in_app_or in I. destruct I as [I|[<-|[]]]; auto. apply (gi_wg _ _ _ GI); auto.
  - intros h q I. apply in_app_or in I. destruct I as [I|[<-|[]]]; auto. apply (gi_n _ _ _ GI); auto.
Qed.
(** *** removing a gate *)
Lemma ginv_rem : forall n st st' W g, ginv n st W -> o_count st <= o_count st' -> (forall q, o_gates st' q = rem g (o_gates st q)) ->
  (forall q, avok q (o_gates st' q) (o_avail st' q) (o_two st' q)) -> ginv n st' (rem g W).
Proof.
  intros n st st' W g GI C HG HA. split; auto.
  - apply (rep_ext (fun q => rem g (o_gates st q))); [intros; rewrite HG; auto|]. apply rep_rem. apply (gi_rep _ _ _ GI).
  - assert (N := gi_nd _ _ _ GI). clear -N. induction W as [|x W IH]; [constructor|]. cbn [map] in N. inversion N as [|? ? N1 N2]; subst. unfold rem in *. simpl. destruct (negb (ieq x g)); auto.
    cbn [map]. constructor; auto. intros I. apply N1. apply in_map_iff in I. destruct I as [y [E I]]. apply filter_In in I. apply in_map_iff. exists y. tauto.
  - intros h I. apply rem_in in I. destruct I as [I _]. apply (gi_lt _ _ _ GI) in I. lia.
  - intros h I. apply rem_in in I. apply (gi_wg _ _ _ GI). tauto.
  - intros h q I. apply rem_in in I. apply (gi_n _ _ _ GI). tauto.
Qed.
Lemma rem_off : forall G W q g, rep G W -> onq q (snd g) = false -> rem g (G q) = G q.
Proof. intros G W q g R O. apply rem_out. intros I. rewrite (rep_on _ _ R q g I) in O. discriminate. Qed.
(** an available gate can be moved to the end *)
Lemma last_den : forall n st W g s, ginv n st W -> In g W -> lastable (o_gates st) g -> tden W s = gden (snd g) (tden (rem g W) s).
Proof.
  intros n st W g s GI I L. rewrite (teq_den W (rem g W ++ [g])).
  - rewrite tden_app. reflexivity.
  - apply (gi_wg _ _ _ GI).
  - intros h J. apply in_app_or in J. destruct J as [J|[<-|[]]]; [apply rem_in in J|]; apply (gi_wg _ _ _ GI); tauto.
  - apply (move_last (o_gates st)); auto; [apply (gi_ndW _ _ _ GI)|apply (gi_wg _ _ _ GI)|apply (gi_rep _ _ _ GI)].
Qed.
Lemma tden_snoc : forall W g s, tden (W ++ [g]) s = gden (snd g) (tden W s).
Proof. intros. rewrite tden_app. reflexivity. Qed.

(** resetting the available gates of a qubit *)
Lemma ginv_reset : forall n st W q b, ginv n st W -> ginv n (reset st q b) W.
Proof.
  intros n st W q b GI. destruct GI. split; auto. intros p. cbn [reset set_two set_avail o_gates o_avail o_two]. unfold fset. destruct (Nat.eqb_spec p q); auto. apply avok_nil.
Qed.

(** *** a gate on two qubits is added, or cancels an equal one *)
Definition pair_add (st : ostate) (c t : nat) (k : gate) : ostate :=
  let g := (o_count st, k) in avail_app (avail_app (gates_app (gates_app (tick st) c g) t g) c g) t g.
Lemma fset_same : forall A (f : nat -> A) k v, fset f k v k = v. Proof. intros. unfold fset. rewrite Nat.eqb_refl. auto. Qed.
Lemma fset_other : forall A (f : nat -> A) k v q, q <> k -> fset f k v q = f q. Proof. intros. unfold fset. rewrite (proj2 (Nat.eqb_neq q k)); auto. Qed.
Lemma pair_add_ok : forall n st W c t k, ginv n st W -> c <> t -> c < n -> t < n -> wg k -> gate_qubits k = [c; t] ->
  (zt c k = true /\ o_two st c = false) -> (zt t k = true /\ o_two st t = false \/ xt t k = true /\ o_two st t = true) ->
  ginv n (pair_add st c t k) (W ++ [(o_count st, k)]) /\ same_pend st (pair_add st c t k) /\ forall s, tden (W ++ [(o_count st, k)]) s = gden k (tden W s).
Proof.
  intros n st W c t k GI N Hc Ht Wk Q Zc Tt. assert (ON : forall q, onq q k = Nat.eqb q c || Nat.eqb q t) by (intros; unfold onq; rewrite Q; simpl; rewrite orb_false_r; auto).
  split; [|split; [repeat split|intros; apply tden_snoc]].
  apply (ginv_add n st); auto.
  - cbn [snd]. intros q O. rewrite ON in O. apply orb_true_iff in O. rewrite !Nat.eqb_eq in O. destruct O; subst; auto.
  - intros q. cbn [snd]. rewrite ON. cbn [pair_add avail_app gates_app tick set_gates set_avail set_count o_gates].
    destruct (Nat.eq_dec q t) as [->|Nt]; [rewrite fset_same, fset_other, Nat.eqb_refl, orb_true_r by auto; auto|]. rewrite fset_other by auto.
    destruct (Nat.eq_dec q c) as [->|Nc]; [rewrite fset_same, Nat.eqb_refl; auto|]. rewrite fset_other, off2 by auto. auto.
  - intros q. cbn [pair_add avail_app gates_app tick set_gates set_avail set_count o_gates o_avail o_two].
    destruct (Nat.eq_dec q t) as [->|Nt]; [|destruct (Nat.eq_dec q c) as [->|Nc]].
    + rewrite !fset_same, !fset_other by auto. assert (V := gi_av _ _ _ GI t). destruct Tt as [[Z T]|[X T]]; rewrite T in V |- *; [apply avok_z|apply avok_x]; auto.
    + rewrite !(fset_other _ _ t) by auto. rewrite !fset_same. assert (V := gi_av _ _ _ GI c). destruct Zc as [Z T]. rewrite T in V |- *. apply avok_z; auto.
    + rewrite !fset_other by auto. apply (gi_av _ _ _ GI).
Qed.
Definition pair_rem (st : ostate) (c t : nat) (g : igate) : res ostate :=
  let* st := avail_rem st c g in
  let* st := gates_rem st c g in
  let* st := avail_rem st t g in
  gates_rem st t g.
Lemma pair_rem_ok : forall n st W c t g, ginv n st W -> c <> t -> gate_qubits (snd g) = [c; t] -> In g (o_avail st c) -> In g (o_avail st t) -> is_zphase g = false ->
  exists st', pair_rem st c t g = Ok st' /\ ginv n st' (rem g W) /\ same_pend st st' /\ In g W /\ forall s, tden W s = gden (snd g) (tden (rem g W) s).
Proof.
  intros n st W c t g GI N Q Ic It NZ. assert (ND := gi_nd _ _ _ GI). assert (IW := av_w _ _ _ GI c g Ic).
  assert (ON : forall q, onq q (snd g) = Nat.eqb q c || Nat.eqb q t) by (intros; unfold onq; rewrite Q; simpl; rewrite orb_false_r; auto).
  unfold pair_rem, avail_rem, gates_rem.
  rewrite (ig_remove_in W g (o_avail st c)); auto using (av_w _ _ _ GI c), (av_nd _ _ _ GI c). cbn [bind set_avail set_gates o_gates o_avail].
  rewrite (ig_remove_in W g (o_gates st c)); auto; [|intros; apply (gates_w _ _ _ GI c); auto|apply (gi_ndq _ _ _ GI)|apply (av_in _ _ _ GI); auto]. cbn [bind set_avail set_gates o_gates o_avail].
  rewrite (fset_other _ _ c _ t) by auto. rewrite (ig_remove_in W g (o_avail st t)); auto; [|intros; apply (av_w _ _ _ GI t); auto|apply (av_nd _ _ _ GI)]. cbn [bind set_avail set_gates o_gates o_avail].
  rewrite (fset_other _ _ c _ t) by auto. rewrite (ig_remove_in W g (o_gates st t)); auto; [|intros; apply (gates_w _ _ _ GI t); auto|apply (gi_ndq _ _ _ GI)|apply (av_in _ _ _ GI); auto]. cbn [bind set_avail set_gates o_gates o_avail].
  eexists. split; [reflexivity|]. split; [|split; [repeat split|split; auto]].
  - assert (HG : forall q, fset (fset (o_gates st) c (rem g (o_gates st c))) t (rem g (o_gates st t)) q = rem g (o_gates st q)).
    { intros q. destruct (Nat.eq_dec q t) as [->|Nt]; [rewrite fset_same; auto|]. rewrite fset_other by auto. destruct (Nat.eq_dec q c) as [->|Nc]; [rewrite fset_same; auto|]. rewrite fset_other by auto.
      symmetry. apply (rem_off _ W); [apply (gi_rep _ _ _ GI)|]. rewrite ON. apply off2; auto. }
    apply (ginv_rem n st); auto. intros q. cbn [o_gates o_avail o_two set_gates set_avail]. rewrite HG. assert (V := gi_av _ _ _ GI q).
    destruct (Nat.eq_dec q t) as [->|Nt]; [rewrite fset_same; apply avok_rem; auto; apply (gi_ndq _ _ _ GI)|]. rewrite (fset_other _ _ t) by auto.
    destruct (Nat.eq_dec q c) as [->|Nc]; [rewrite fset_same; apply avok_rem; auto; apply (gi_ndq _ _ _ GI)|]. rewrite fset_other by auto.
    apply avok_off; auto. intros I. apply (rep_on _ _ (gi_rep _ _ _ GI)) in I. rewrite ON, off2 in I by auto. discriminate.
  - intros s. apply (last_den n st); auto. intros q O. rewrite ON in O. apply orb_true_iff in O. rewrite !Nat.eqb_eq in O.
    destruct O as [-> | ->]; [destruct (avok_last _ _ _ _ g (gi_av _ _ _ GI c) Ic) as [l1 [l2 [E [H _]]]]|destruct (avok_last _ _ _ _ g (gi_av _ _ _ GI t) It) as [l1 [l2 [E [H _]]]]]; auto; exists l1, l2; auto.
Qed.
