(** apply_state and apply_effect: plugging basis states into a diagram *)
From Coq Require Import Reals ZArith QArith Qcanon List Bool Arith Lia Permutation FunctionalExtensionality Ascii.
From Verif Require Import CNum Base ScalarModel ScalarProofs GraphModel GraphSem SumLemmas GraphProofs GraphOps RulesModel RuleLemmas
  SpiderProofs IsoProofs IdProofs LcompProofs PivotProofs ColorProofs GrowProofs StoreProofs InvProofs BfixProofs TotalProofs GrowTotal
  GateModel CircSpec GateProofs AmpProofs CircGraphModel CircGraphProofs CircGraphFacts VerifyProofs GraphAlgModel GraphAlgProofs GraphAlgFacts ComposeProofs ComposeFacts.
Import ListNotations.
Open Scope C_scope.

(** ** Specification *)
Definition slash (c : ascii) : bool := Ascii.eqb c "/"%char.
Definition known (c : ascii) : Prop := In c ["0"; "1"; "+"; "-"; "/"]%char.
(** the amplitude of |t> in the state named by a character *)
Definition amp (c : ascii) (t : bool) : C :=
  if Ascii.eqb c "0"%char then dlt t false else if Ascii.eqb c "1"%char then dlt t true
  else if Ascii.eqb c "+"%char then sq2p (-1) else sq2p (-1) * sgn t.
(** positions of a string that name a state *)
Definition slots (s : list ascii) : list nat := filter (fun j => negb (slash (nth j s "/"%char))) (seq 0 (length s)).
(** which of the remaining wires the wire at position j becomes *)
Definition rank (s : list ascii) (j : nat) : nat := length (filter slash (firstn j s)).

(** ** One wire *)
Lemma part_one : forall g v u x, wfg g -> In v (vertices g) -> u <> v -> (forall w, edge_type g v w <> None <-> w = u) ->
  part g (vertices g) x = part g (without [v] (vertices g)) x * (pw g v (x v) * ew g u v (x u) (x v)).
Proof.
  intros g v u x W Hv Huv HU.
  assert (N : NoDup [v]) by (repeat constructor; intros []).
  assert (I : incl [v] (vertices g)) by (intros w [<-|[]]; auto).
  rewrite (part_perm g _ _ x W (without_perm [v] (vertices g) (wf_nd g W) N I)). unfold part. rewrite cprod_app, pprod_app.
  cbn [cprod pprod]. rewrite (cprod_single (fun a => ew g a v (x a) (x v) * C1) _ u).
  - ring.
  - apply NoDup_filter. apply W.
  - apply in_without. split; [|intros [X|[]]; congruence]. assert (E := proj2 (HU u) eq_refl). rewrite wf_sym in E by auto. eapply edge_type_in_l; eauto.
  - intros w Hw Hne. unfold ew. rewrite wf_sym by auto. destruct (edge_type g v w) eqn:E; [exfalso; apply Hne, HU; congruence|]. simpl. ring.
Qed.
Lemma char_wt : forall c p e xu p0, known c -> slash c = false ->
  sq2p (-1) * (ephase (if Ascii.eqb c "1"%char || Ascii.eqb c "-"%char then qmod2 1%Qc else 0%Qc) false * wt (option_map (tog (xorb xu (Ascii.eqb c "0"%char || Ascii.eqb c "1"%char))) (Some e)) p false
     + ephase (if Ascii.eqb c "1"%char || Ascii.eqb c "-"%char then qmod2 1%Qc else 0%Qc) true * wt (option_map (tog (xorb xu (Ascii.eqb c "0"%char || Ascii.eqb c "1"%char))) (Some e)) p true)
  = amp c false * wt (option_map (tog (xorb xu p0)) (Some e)) p false + amp c true * wt (option_map (tog (xorb xu p0)) (Some e)) p true \/ p0 = true.
Proof.
  assert (Q : sq2p (-1) * sq2p (-1) + sq2p (-1) * sq2p (-1) = C1).
  { replace (sq2p (-1) * sq2p (-1)) with (sq2p (-2)) by (rewrite <- sq2p_add; auto).
    transitivity ((C1 + C1) * sq2p (-2)); [ring|]. rewrite <- sq2p_2, <- sq2p_add. apply sq2p_0. }
  intros c p e xu p0 K S. destruct p0; [right; auto|left].
  assert (E1 : ephase (qmod2 1%Qc) true = - C1) by (unfold ephase; rewrite cexp_qmod2; apply cexp_1).
  assert (E0 : ephase 0%Qc true = C1) by (unfold ephase; apply cexp_0).
  repeat (destruct K as [<-|K]; [try discriminate; cbn [Ascii.eqb Bool.eqb orb amp]; change (ephase (qmod2 1%Qc) false) with C1; change (ephase 0%Qc false) with C1; rewrite ?E1, ?E0;
    destruct xu, e, p; simpl; unfold dlt, sgn, amp; simpl; try ring; try (transitivity (sq2p (-1) * sq2p (-1) + sq2p (-1) * sq2p (-1)); [ring|rewrite Q; ring])|]).
  destruct K.
Qed.
Definition plugged (c : ascii) (v : nat) (g : graph) : graph :=
  let g := set_type v (if Ascii.eqb c "0"%char || Ascii.eqb c "1"%char then XSP else ZSP) (on_scalar (s_add_power (-1)) g) in
  if Ascii.eqb c "1"%char || Ascii.eqb c "-"%char then set_phase v 1%Qc g else g.
Lemma apply_char_run : forall acc g c v, known c -> apply_char (acc, g) (c, v) = Ok (if slash c then (acc ++ [v], g) else (acc, plugged c v g)).
Proof. intros acc g c v K. repeat (destruct K as [<-|K]; [reflexivity|]). destruct K. Qed.
Lemma plugged_ok : forall c v g, known c -> slash c = false -> zcore g -> In v (vertices g) -> vty g v = BOUNDARY ->
  let g' := plugged c v g in zcore g' /\ vertices g' = vertices g /\ (forall u, u <> v -> vty g' u = vty g u) /\ vty g' v <> BOUNDARY /\
  ginputs g' = ginputs g /\ goutputs g' = goutputs g /\
  (forall b, sem g' b = amp c false * sem g (upd b v false) + amp c true * sem g (upd b v true)).
Proof.
  intros c v g K S Z Hv T g'. assert (W := zc_wf _ Z).
  set (t := if Ascii.eqb c "0"%char || Ascii.eqb c "1"%char then XSP else ZSP).
  set (p := if Ascii.eqb c "1"%char || Ascii.eqb c "-"%char then qmod2 1%Qc else 0%Qc).
  assert (W' : wfg g').
  { unfold g', plugged. fold t. destruct (Ascii.eqb c "1"%char || Ascii.eqb c "-"%char); [apply set_phase_wfg|]; auto; apply set_type_wfg; auto; apply on_scalar_wfg; auto. }
  assert (TV : vty g' v = t).
  { unfold g', plugged. fold t. destruct (Ascii.eqb c "1"%char || Ascii.eqb c "-"%char); unfold vty, set_phase, set_type; cbn [gty with_ty with_phase]; rewrite dget_dset, Nat.eqb_refl; auto. }
  assert (TO : forall u, u <> v -> vty g' u = vty g u).
  { intros u D. unfold g', plugged. fold t. apply Nat.eqb_neq in D. destruct (Ascii.eqb c "1"%char || Ascii.eqb c "-"%char); unfold vty, set_phase, set_type; cbn [gty with_ty with_phase]; rewrite dget_dset, D; auto. }
  assert (P0 : phase g v = 0%Qc) by (apply (zc_b0 _ Z); auto).
  assert (PV : phase g' v = p).
  { unfold g', plugged, p. fold t. destruct (Ascii.eqb c "1"%char || Ascii.eqb c "-"%char); unfold phase at 1, set_phase, set_type; cbn [gphase with_ty with_phase]; [rewrite dget_dset, Nat.eqb_refl; auto|exact P0]. }
  assert (PO : forall u, u <> v -> phase g' u = phase g u).
  { intros u D. unfold g', plugged. fold t. apply Nat.eqb_neq in D. destruct (Ascii.eqb c "1"%char || Ascii.eqb c "-"%char); unfold phase, set_phase, set_type; cbn [gphase with_ty with_phase]; rewrite ?dget_dset, ?D; auto. }
  assert (E : forall a b, edge_type g' a b = edge_type g a b) by (intros; unfold g', plugged; fold t; destruct (Ascii.eqb c "1"%char || Ascii.eqb c "-"%char); auto).
  assert (VV : vertices g' = vertices g) by (unfold g', plugged; fold t; destruct (Ascii.eqb c "1"%char || Ascii.eqb c "-"%char); auto).
  assert (RR : grindex g' = grindex g) by (unfold g', plugged; fold t; destruct (Ascii.eqb c "1"%char || Ascii.eqb c "-"%char); auto).
  assert (II : ginputs g' = ginputs g) by (unfold g', plugged; fold t; destruct (Ascii.eqb c "1"%char || Ascii.eqb c "-"%char); auto).
  assert (OO : goutputs g' = goutputs g) by (unfold g', plugged; fold t; destruct (Ascii.eqb c "1"%char || Ascii.eqb c "-"%char); auto).
  assert (SS : gscalar g' = s_add_power (-1) (gscalar g)) by (unfold g', plugged; fold t; destruct (Ascii.eqb c "1"%char || Ascii.eqb c "-"%char); auto).
  assert (TB : vty g' v <> BOUNDARY) by (rewrite TV; unfold t; destruct (Ascii.eqb c "0"%char || Ascii.eqb c "1"%char); discriminate).
  clearbody g'. split; [|split; [auto|split; [auto|split; [auto|split; [auto|split; [auto|]]]]]].
  - constructor; auto.
    + intros a. rewrite E. apply (zc_nl _ Z).
    + intros a Ha. destruct (Nat.eq_dec a v) as [->|D]; [rewrite TV; unfold t; destruct (Ascii.eqb c "0"%char || Ascii.eqb c "1"%char); discriminate|]. rewrite TO by auto. apply (zc_zx _ Z). rewrite <- VV. auto.
    + intros a Ha. destruct (Nat.eq_dec a v) as [->|D]; [rewrite PV; unfold p; destruct (Ascii.eqb c "1"%char || Ascii.eqb c "-"%char); [apply qmod2_range|rewrite <- P0; apply (zc_ph _ Z); auto]|]. rewrite PO by auto. apply (zc_ph _ Z). rewrite <- VV. auto.
    + intros a Ha Ta. destruct (Nat.eq_dec a v) as [->|D]; [contradiction|]. rewrite TO in Ta by auto. rewrite VV in Ha. destruct (zc_deg _ Z a Ha Ta) as [u Hu]. exists u. intros w. rewrite E. auto.
    + intros a Ha Ta. destruct (Nat.eq_dec a v) as [->|D]; [contradiction|]. rewrite TO in Ta by auto. rewrite PO by auto. apply (zc_b0 _ Z); auto. rewrite <- VV. auto.
    + intros a Ha. rewrite RR. apply (zc_rows _ Z). rewrite <- VV. auto.
  - intros b. destruct (zc_deg _ Z v Hv T) as [u HU].
    assert (Huv : u <> v). { intros ->. apply (proj2 (HU v) eq_refl). apply (zc_nl _ Z). }
    assert (HU' : forall w, edge_type g' v w <> None <-> w = u) by (intros w; rewrite E; auto).
    assert (B0 : isB g v = true) by (unfold isB; rewrite T; auto).
    assert (BV : isB g' v = false) by (unfold isB; destruct (vty g' v); auto; congruence).
    assert (BO : forall a, a <> v -> isB g' a = isB g a) by (intros a D; unfold isB; rewrite TO by auto; auto).
    assert (NI : ~ In v (internal g)) by (unfold internal; rewrite filter_In, B0; intros [_ X]; discriminate).
    assert (PI : Permutation (internal g') (v :: internal g)).
    { apply nodup_same_perm; [apply NoDup_filter; apply W'|constructor; auto; apply NoDup_filter; apply W|].
      intros a. unfold internal. cbn [In]. rewrite !filter_In, VV, !negb_true_iff. destruct (Nat.eq_dec a v) as [->|D]; [split; auto|]. rewrite BO by auto. split; auto. intros [X|X]; auto. congruence. }
    rewrite !sem_part. rewrite (sumv_perm _ _ PI) by (apply NoDup_filter; apply W'). cbn [sumv].
    set (P := part g (without [v] (vertices g))).
    assert (PP : forall y c, P (upd y v c) = P y).
    { intros y q. apply part_agree. intros a Ha. apply upd_other. intros ->. apply in_without in Ha. destruct Ha as [_ Ha]. apply Ha. simpl; auto. }
    assert (S' : forall q, sumv (internal g) (part g' (vertices g')) (upd b v q) = sumv (internal g) (fun x => P x * (ephase p q * ew g' u v (x u) q)) b).
    { intros q. transitivity (sumv (internal g) (fun x => P x * (ephase p q * ew g' u v (x u) q)) (upd b v q)).
      - apply sumv_ext_on. intros x Hx. rewrite (part_one g' v u x); auto; [|rewrite VV; auto]. rewrite VV.
        rewrite Hx, upd_same by auto. unfold pw. rewrite BV, PV. f_equal. unfold P. apply part_ext.
        + intros a Ha. apply in_without in Ha. destruct Ha as [_ Ha]. split; [apply TO|apply PO]; intros ->; apply Ha; simpl; auto.
        + intros; apply E.
      - apply sumv_upd; auto. intros y q'. rewrite PP, upd_other by auto. auto. }
    assert (S0 : forall q, sumv (internal g) (part g (vertices g)) (upd b v q) = sumv (internal g) (fun x => P x * ew g u v (x u) q) b).
    { intros q. transitivity (sumv (internal g) (fun x => P x * ew g u v (x u) q) (upd b v q)).
      - apply sumv_ext_on. intros x Hx. rewrite (part_one g v u x); auto. rewrite Hx, upd_same by auto. unfold pw. rewrite B0. unfold P. ring.
      - apply sumv_upd; auto. intros y q'. rewrite PP, upd_other by auto. auto. }
    rewrite !S', !S0, SS, add_power_number.
    transitivity (to_number (gscalar g) * sumv (internal g) (fun x => P x * (amp c false * ew g u v (x u) false + amp c true * ew g u v (x u) true)) b).
    + rewrite <- sumv_plus. rewrite Cmult_comm, Cmult_assoc, (Cmult_comm _ (to_number (gscalar g))). f_equal. rewrite Cmult_comm, <- sumv_scal. apply sumv_ext. intros x.
      assert (EE : edge_type g u v <> None) by (rewrite (wf_sym g W); apply HU; auto).
      unfold ew. rewrite E. destruct (edge_type g u v) as [e|]; [|congruence].
      assert (Xu : isX g' u = isX g u) by (unfold isX; rewrite TO by auto; auto). rewrite Xu.
      replace (isX g' v) with (Ascii.eqb c "0"%char || Ascii.eqb c "1"%char) by (unfold isX; rewrite TV; unfold t; destruct (Ascii.eqb c "0"%char || Ascii.eqb c "1"%char); auto).
      replace (isX g v) with false by (unfold isX; rewrite T; auto).
      destruct (char_wt c (x u) e (isX g u) false K S) as [Q|Q]; [|discriminate]. fold p in Q. rewrite <- Q. ring.
    + rewrite (sumv_ext _ _ (fun x => amp c false * (P x * ew g u v (x u) false) + amp c true * (P x * ew g u v (x u) true))) by (intros; ring).
      rewrite sumv_plus, !sumv_scal. ring.
Qed.

(** ** A whole string *)
Definition kept (P : list (ascii * nat)) : list nat := map snd (filter (fun p => slash (fst p)) P).
Definition plugs (P : list (ascii * nat)) : list (ascii * nat) := filter (fun p => negb (slash (fst p))) P.
Lemma sumv_upd_in : forall l F b v s, ~ In v l -> sumv l F (upd b v s) = sumv l (fun x => F (upd x v s)) b.
Proof.
  induction l as [|a l IH]; intros F b v s N; simpl; auto. assert (v <> a) by (intros ->; apply N; simpl; auto).
  rewrite !(upd_comm b v a) by auto. rewrite (IH F (upd b a false) v s), (IH F (upd b a true) v s) by (intros X; apply N; simpl; auto). auto.
Qed.
Lemma apply_fold : forall P acc g, Forall (fun p => known (fst p)) P -> NoDup (map snd P) -> zcore g ->
  (forall v, In v (map snd P) -> In v (vertices g) /\ vty g v = BOUNDARY) ->
  exists r, foldM apply_char P (acc, g) = Ok (acc ++ kept P, r) /\ zcore r /\ vertices r = vertices g /\
    (forall v, vty r v = BOUNDARY <-> vty g v = BOUNDARY /\ ~ In v (map snd (plugs P))) /\ ginputs r = ginputs g /\ goutputs r = goutputs g /\
    forall b, sem r b = sumv (map snd (plugs P)) (fun x => cprod (fun p => amp (fst p) (x (snd p))) (plugs P) * sem g x) b.
Proof.
  induction P as [|[c v] P IH]; intros acc g HK HN Z HV; cbn [foldM].
  - exists g. cbn [kept filter map]. rewrite app_nil_r. split; auto. split; auto. split; auto. split; [intros v; split; [intros H; split; auto|intros H; apply H]|]. split; auto. split; auto. intros b. simpl. ring.
  - apply Forall_cons_iff in HK. destruct HK as [K HK]. cbn [map snd] in HN. apply NoDup_cons_iff in HN. destruct HN as [N1 N2].
    destruct (HV v) as [Hv Tv]; [simpl; auto|]. cbn [fst] in K.
    rewrite apply_char_run by auto. destruct (slash c) eqn:S; cbn [bind]; unfold kept, plugs; cbn [filter fst negb]; rewrite S; cbn [negb map snd].
    + destruct (IH (acc ++ [v]) g) as [r [E R]]; auto; [intros; apply HV; simpl; auto|]. exists r. rewrite <- app_assoc in E. split; auto.
    + destruct (plugged_ok c v g K S Z Hv Tv) as [Z1 [V1 [T1 [B1 [I1 [O1 S1]]]]]]. set (g1 := plugged c v g) in *.
      assert (NV : ~ In v (map snd (plugs P))). { intros X. apply in_map_iff in X. destruct X as [q [<- X]]. apply filter_In in X. apply N1. apply in_map. apply X. }
      destruct (IH acc g1) as [r [E [Zr [Vr [Tr [Ir [Or Sr]]]]]]]; auto.
      { intros w Hw. rewrite V1, T1; [apply HV; simpl; auto|]. intros ->. contradiction. }
      exists r. split; auto. split; auto. split; [congruence|]. split; [|split; [congruence|split; [congruence|]]].
      * intros w. rewrite Tr. cbn [In]. fold (plugs P). destruct (Nat.eq_dec w v) as [->|D]; [split; intros X; exfalso; tauto|]. rewrite T1 by auto. split; intros [X Y]; split; auto. intros [X'|X']; [congruence|auto].
      * intros b. rewrite Sr. fold (plugs P). cbn [sumv cprod fst snd]. rewrite !sumv_upd_in by auto. rewrite <- sumv_plus. apply sumv_ext. intros x. rewrite S1, !upd_same.
        assert (CP : forall q, cprod (fun p => amp (fst p) (upd x v q (snd p))) (plugs P) = cprod (fun p => amp (fst p) (x (snd p))) (plugs P)).
        { intros q. apply cprod_ext. intros p Hp. rewrite upd_other; auto. intros X. apply NV. rewrite <- X. apply in_map. auto. }
        rewrite !CP. ring.
Qed.
Lemma combine_map_seq : forall (s : list ascii) (l : list nat), length s = length l ->
  combine s l = map (fun j => (nth j s "/"%char, nth j l 0%nat)) (seq 0 (length s)).
Proof.
  induction s as [|c s IH]; intros [|v l] H; try discriminate; auto. simpl. f_equal. rewrite IH by (simpl in H; lia).
  rewrite <- seq_shift, map_map. auto.
Qed.
Lemma filter_map_comm : forall A B (F : A -> B) (p : B -> bool) l, filter p (map F l) = map F (filter (fun a => p (F a)) l).
Proof. intros A B F p. induction l as [|a l IH]; simpl; auto. rewrite IH. destruct (p (F a)); auto. Qed.
Lemma plugs_combine : forall s l, length s = length l -> plugs (combine s l) = map (fun j => (nth j s "/"%char, nth j l 0%nat)) (slots s).
Proof. intros s l H. unfold plugs, slots. rewrite combine_map_seq by auto. apply filter_map_comm. Qed.
Lemma kept_combine : forall s l, length s = length l -> length (kept (combine s l)) = length (filter slash s).
Proof.
  unfold kept. induction s as [|c s IH]; intros [|v l] H; try discriminate; auto. simpl. destruct (slash c); simpl; rewrite IH; auto.
Qed.
Lemma kept_nth : forall s l j, length s = length l -> (j < length s)%nat -> slash (nth j s "/"%char) = true ->
  (rank s j < length (kept (combine s l)))%nat /\ nth (rank s j) (kept (combine s l)) 0%nat = nth j l 0%nat.
Proof.
  unfold kept, rank. induction s as [|c s IH]; intros [|v l] j H J S; try discriminate; [simpl in J; lia|].
  destruct j as [|j]; cbn [nth firstn filter combine fst] in *.
  - rewrite S. simpl. split; [lia|auto].
  - destruct (IH l j) as [A B]; auto; [simpl in J; lia|]. destruct (slash c); cbn [filter map length snd nth]; split; auto. lia.
Qed.
Lemma kept_in : forall P v, In v (kept P) -> In v (map snd P).
Proof. intros P v H. unfold kept in H. apply in_map_iff in H. destruct H as [p [<- H]]. apply filter_In in H. apply in_map. apply H. Qed.
Lemma kept_plugs : forall P v, In v (map snd P) -> In v (kept P) \/ In v (map snd (plugs P)).
Proof.
  intros P v H. apply in_map_iff in H. destruct H as [p [<- H]]. unfold kept, plugs. destruct (slash (fst p)) eqn:S; [left|right]; apply in_map, filter_In; rewrite S; auto.
Qed.
Lemma kept_not_plugs : forall P, NoDup (map snd P) -> forall v, In v (kept P) -> ~ In v (map snd (plugs P)).
Proof.
  intros P N v H X. unfold kept in H. unfold plugs in X. apply in_map_iff in H. destruct H as [p [<- H]]. apply in_map_iff in X. destruct X as [q [E X]].
  apply filter_In in H. apply filter_In in X. destruct H as [Hp H], X as [Hq X].
  assert (p = q). { clear H X. induction P as [|a P IH]; [destruct Hp|]. simpl in N. apply NoDup_cons_iff in N. destruct N as [N1 N2].
    destruct Hp as [->|Hp], Hq as [->|Hq]; auto; exfalso; apply N1; [rewrite <- E|rewrite E]; apply in_map; auto. }
  subst. rewrite H in X. discriminate.
Qed.
Lemma kept_nodup : forall P, NoDup (map snd P) -> NoDup (kept P).
Proof.
  unfold kept. induction P as [|[c v] P IH]; intros N; simpl; [constructor|]. simpl in N. apply NoDup_cons_iff in N. destruct N as [N1 N2].
  destruct (slash c); simpl; auto. constructor; auto. intros X. apply N1. apply (kept_in P). auto.
Qed.
Lemma combine_snd : forall (s : list ascii) (l : list nat), length s = length l -> map snd (combine s l) = l.
Proof. induction s as [|c s IH]; intros [|v l] H; try discriminate; auto. simpl. f_equal. apply IH. auto. Qed.
Lemma slots_in : forall s j, In j (slots s) <-> (j < length s)%nat /\ slash (nth j s "/"%char) = false.
Proof. intros. unfold slots. rewrite filter_In, in_seq, negb_true_iff. intuition lia. Qed.

(** one sum over the plugged positions *)
Lemma slots_sum : forall s l (G : assignment -> C) b base, length s = length l -> NoDup l -> respects (seq 0 (length s)) G ->
  (forall j, (j < length s)%nat -> slash (nth j s "/"%char) = true -> b (nth j l 0%nat) = base j) ->
  sumv (map snd (plugs (combine s l))) (fun x => cprod (fun p => amp (fst p) (x (snd p))) (plugs (combine s l)) * G (fun j => x (nth j l 0%nat))) b
  = sumv (slots s) (fun w => cprod (fun j => amp (nth j s "/"%char) (w j)) (slots s) * G w) base.
Proof.
  intros s l G b base H N R HB. rewrite plugs_combine by auto. rewrite map_map. cbn [snd].
  set (F := fun w : assignment => cprod (fun j => amp (nth j s "/"%char) (w j)) (slots s) * G w).
  assert (RF : respects (seq 0 (length s)) F).
  { intros x y E. unfold F. rewrite (R x y E). f_equal. apply cprod_ext. intros j Hj. rewrite E; auto. apply slots_in in Hj. apply in_seq. lia. }
  transitivity (sumv (map (fun j => nth j l 0%nat) (slots s)) (fun x => F (fun j => x (nth j l 0%nat))) b).
  - apply sumv_ext. intros x. unfold F. f_equal. generalize (slots s). induction l0 as [|j l0 IH]; simpl; auto. rewrite IH. auto.
  - rewrite (sumv_map (seq 0 (length s)) F (fun j => nth j l 0%nat)); auto.
    + apply (sumv_agree (seq 0 (length s))); auto. intros j Hj NS. apply in_seq in Hj. apply HB; [lia|]. rewrite slots_in in NS. destruct (slash _) eqn:E; auto. exfalso. apply NS. split; [lia|auto].
    + intros j k Hj Hk. apply in_seq in Hj. apply in_seq in Hk. apply nth_inj; auto; lia.
    + intros j Hj. apply slots_in in Hj. apply in_seq. lia.
Qed.

Theorem apply_state_val : forall s g, zinv g -> io_ok g -> length s = length (ginputs g) -> Forall known s ->
  exists r, apply_state s g = Ok r /\ zinv r /\ io_ok r /\ length (ginputs r) = length (filter slash s) /\ goutputs r = goutputs g /\
    forall i y, val r i y = sumv (slots s) (fun w => cprod (fun j => amp (nth j s "/"%char) (w j)) (slots s) * val g w y) (fun j => i (rank s j)).
Proof.
  intros s g Z N L K. unfold apply_state. rewrite L, Nat.ltb_irrefl. set (P := combine s (ginputs g)).
  assert (PS : map snd P = ginputs g) by (apply combine_snd; auto).
  assert (NI : NoDup (ginputs g)) by (eapply NoDup_app_l; exact N).
  destruct (apply_fold P [] g) as [r [E [Zr [V [T [I [O S]]]]]]].
  { rewrite Forall_forall in *. intros [c v] Hp. apply in_combine_l in Hp. cbn [fst]. auto. }
  { rewrite PS. auto. } { apply zinv_core. auto. } { rewrite PS. intros v Hv. apply (zinv_io _ Z). auto. }
  rewrite E. cbn [bind app]. set (r' := set_inputs (kept P) r). exists r'. split; auto.
  assert (NP : NoDup (map snd P)) by (rewrite PS; auto).
  assert (Zr' : zinv r').
  { apply core_zinv; [apply (core_frame r); auto|]. intros v. change (In v (kept P) \/ In v (goutputs r) <-> In v (vertices r) /\ vty r v = BOUNDARY). rewrite O, V, T. split.
    - intros [H|H].
      + assert (X := kept_in _ _ H). rewrite PS in X. assert (Y := proj1 (zinv_io _ Z v) (or_introl X)). split; [apply Y|]. split; [apply Y|]. apply kept_not_plugs; auto.
      + assert (Y := proj1 (zinv_io _ Z v) (or_intror H)). split; [apply Y|]. split; [apply Y|]. intros X. apply in_map_iff in X. destruct X as [p [<- X]]. unfold plugs in X. apply filter_In in X.
        apply (NoDup_app_disj _ _ _ N (snd p)); auto. rewrite <- PS. apply in_map. apply X.
    - intros [Hv [Tv Nv]]. destruct (zi_io _ Z v Hv Tv) as [X|X]; auto. left. rewrite <- PS in X. destruct (kept_plugs _ _ X); auto. contradiction. }
  assert (N' : io_ok r').
  { change (NoDup (kept P ++ goutputs r)). rewrite O. apply RuleLemmas.nodup_app; [apply kept_nodup; auto|eapply NoDup_app_r; exact N|].
    intros v Hv X. apply (NoDup_app_disj _ _ _ N v); auto. rewrite <- PS. apply kept_in. auto. }
  split; auto. split; auto. split; [apply kept_combine; auto|]. split; auto.
  intros i y. unfold val at 1. change (sem r' (bits (ginputs r') (goutputs r') i y)) with (sem r (bits (kept P) (goutputs r) i y)). rewrite S, O. set (b := bits (kept P) (goutputs g) i y).
  change (NoDup (kept P ++ goutputs r)) in N'. rewrite O in N'.
  rewrite <- (slots_sum s (ginputs g) (fun w => val g w y) b); auto.
  - apply sumv_ext_on. intros x Hx. f_equal. rewrite (val_sem g x Z N). apply val_ext; auto. intros j Hj. rewrite Hx.
    + unfold b. apply bits_out; auto.
    + intros X. apply in_map_iff in X. destruct X as [p [X Hp]]. unfold plugs in Hp. apply filter_In in Hp. apply (NoDup_app_disj _ _ _ N (snd p)); [rewrite <- PS; apply in_map; apply Hp|rewrite X; apply nth_In; auto].
  - intros w w' H. apply val_ext; auto. intros j Hj. apply H. apply in_seq. lia.
  - intros j Hj Sj. destruct (kept_nth s (ginputs g) j L Hj Sj) as [A B]. rewrite <- B. unfold b. apply bits_in; auto.
Qed.
Theorem apply_effect_val : forall s g, zinv g -> io_ok g -> length s = length (goutputs g) -> Forall known s ->
  exists r, apply_effect s g = Ok r /\ zinv r /\ io_ok r /\ length (goutputs r) = length (filter slash s) /\ ginputs r = ginputs g /\
    forall i y, val r i y = sumv (slots s) (fun w => cprod (fun j => amp (nth j s "/"%char) (w j)) (slots s) * val g i w) (fun j => y (rank s j)).
Proof.
  intros s g Z N L K. unfold apply_effect. rewrite L, Nat.ltb_irrefl. set (P := combine s (goutputs g)).
  assert (PS : map snd P = goutputs g) by (apply combine_snd; auto).
  assert (NI : NoDup (goutputs g)) by (eapply NoDup_app_r; exact N).
  destruct (apply_fold P [] g) as [r [E [Zr [V [T [I [O S]]]]]]].
  { rewrite Forall_forall in *. intros [c v] Hp. apply in_combine_l in Hp. cbn [fst]. auto. }
  { rewrite PS. auto. } { apply zinv_core. auto. } { rewrite PS. intros v Hv. apply (zinv_io _ Z). auto. }
  rewrite E. cbn [bind app]. set (r' := set_outputs (kept P) r). exists r'. split; auto.
  assert (NP : NoDup (map snd P)) by (rewrite PS; auto).
  assert (Zr' : zinv r').
  { apply core_zinv; [apply (core_frame r); auto|]. intros v. change (In v (ginputs r) \/ In v (kept P) <-> In v (vertices r) /\ vty r v = BOUNDARY). rewrite I, V, T. split.
    - intros [H|H].
      + assert (Y := proj1 (zinv_io _ Z v) (or_introl H)). split; [apply Y|]. split; [apply Y|]. intros X. apply in_map_iff in X. destruct X as [p [<- X]]. unfold plugs in X. apply filter_In in X.
        apply (NoDup_app_disj _ _ _ N (snd p)); auto. rewrite <- PS. apply in_map. apply X.
      + assert (X := kept_in _ _ H). rewrite PS in X. assert (Y := proj1 (zinv_io _ Z v) (or_intror X)). split; [apply Y|]. split; [apply Y|]. apply kept_not_plugs; auto.
    - intros [Hv [Tv Nv]]. destruct (zi_io _ Z v Hv Tv) as [X|X]; auto. right. rewrite <- PS in X. destruct (kept_plugs _ _ X); auto. contradiction. }
  assert (N' : io_ok r').
  { change (NoDup (ginputs r ++ kept P)). rewrite I. apply RuleLemmas.nodup_app; [eapply NoDup_app_l; exact N|apply kept_nodup; auto|].
    intros v Hv X. apply (NoDup_app_disj _ _ _ N v); auto. rewrite <- PS. apply kept_in. auto. }
  split; auto. split; auto. split; [apply kept_combine; auto|]. split; auto.
  intros i y. unfold val at 1. change (sem r' (bits (ginputs r') (goutputs r') i y)) with (sem r (bits (ginputs r) (kept P) i y)). rewrite S, I. set (b := bits (ginputs g) (kept P) i y).
  change (NoDup (ginputs r ++ kept P)) in N'. rewrite I in N'.
  rewrite <- (slots_sum s (goutputs g) (fun w => val g i w) b); auto.
  - apply sumv_ext_on. intros x Hx. f_equal. rewrite (val_sem g x Z N). apply val_ext; auto. intros j Hj. rewrite Hx.
    + unfold b. apply bits_in; auto.
    + intros X. apply in_map_iff in X. destruct X as [p [X Hp]]. unfold plugs in Hp. apply filter_In in Hp. apply (NoDup_app_disj _ _ _ N (snd p)); [rewrite X; apply nth_In; auto|rewrite <- PS; apply in_map; apply Hp].
  - intros w w' H. apply val_ext; auto. intros j Hj. apply H. apply in_seq. lia.
  - intros j Hj Sj. destruct (kept_nth s (goutputs g) j L Hj Sj) as [A B]. rewrite <- B. unfold b. apply bits_out; auto.
Qed.
