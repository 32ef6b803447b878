(** mbqc.py: what measure and apply_pauli do to the map. *)
From Coq Require Import Reals ZArith QArith Qcanon List Bool Arith Lia Lra Permutation Ring.
From Verif Require Import CNum Base ScalarModel ScalarProofs GraphModel GraphSem SumLemmas GraphProofs GraphOps RulesModel RuleLemmas
  SpiderProofs IsoProofs IdProofs LcompProofs PivotProofs PivotMatch GrowProofs StoreProofs InvProofs BfixProofs TotalProofs AmpProofs ZXFacts.
From Verif Require ExtractNbrs BasicColor ColorProofs.
From Verif Require Import CongModel CongProofs MbqcModel.
Import ListNotations.
Open Scope nat_scope.

(** ** Finding the vertex *)
(** [u] lies where the output of the place [pos] is drawn *)
Definition lies (pos : Z * Z) (g : graph) (u : nat) : Prop := qubit g u = (Qcz (2 * fst pos) - frac 4 5)%Qc /\ row g u = (Qcz (2 * snd pos) + frac 4 5)%Qc.
(** [v] is the only vertex at the place [pos] *)
Definition here (pos : Z * Z) (g : graph) (v : nat) : Prop :=
  In v (vertices g) /\ forall u, In u (vertices g) -> (lies pos g u <-> u = v).
Lemma at_pos_iff : forall pos g v, at_pos pos g v = true <-> lies pos g v.
Proof. intros. unfold at_pos, lies, grid_q, grid_r. rewrite andb_true_iff, !qeqb_eq. tauto. Qed.
Lemma here_at : forall pos g v u, here pos g v -> In u (vertices g) -> at_pos pos g u = Nat.eqb u v.
Proof.
  intros pos g v u [_ H] Hu. destruct (Nat.eqb u v) eqn:E; [apply Nat.eqb_eq in E; apply at_pos_iff, H; auto|].
  apply Nat.eqb_neq in E. destruct (at_pos pos g u) eqn:A; auto. apply at_pos_iff, H in A; auto. congruence.
Qed.
(** a loop whose body acts at one element only *)
Lemma fold_one : forall S (f : S -> nat -> res S) (J : S -> Prop) (K : S -> Prop) l v s0, NoDup l -> In v l -> J s0 ->
  (forall s u, In u l -> u <> v -> J s -> f s u = Ok s) -> (forall s u, In u l -> u <> v -> K s -> f s u = Ok s) ->
  (forall s1, f s0 v = Ok s1 -> K s1) -> foldM f l s0 = f s0 v.
Proof.
  intros S f J K l v s0 ND Hv J0 HJ HK H1. apply in_split in Hv. destruct Hv as [l1 [l2 ->]].
  assert (N := NoDup_remove_2 _ _ _ ND).
  assert (E1 : forall m, (forall u, In u m -> f s0 u = Ok s0) -> foldM f m s0 = Ok s0).
  { induction m as [|a m IH]; intros Q; auto. cbn [foldM]. rewrite Q by (left; auto). apply IH. intros u Hu. apply Q. right. auto. }
  rewrite RuleLemmas.foldM_app, E1.
  - cbn [bind foldM]. destruct (f s0 v) as [s1|] eqn:E; auto. cbn [bind]. specialize (H1 s1 eq_refl).
    assert (Q : forall u, In u l2 -> f s1 u = Ok s1). { intros u Hu. apply HK; auto; [rewrite in_app_iff; simpl; auto|]. intros ->. apply N. apply in_app_iff. auto. }
    clear - Q. induction l2 as [|a m IH]; auto. cbn [foldM]. rewrite Q by (left; auto). apply IH. intros u Hu. apply Q. right. auto.
  - intros u Hu. apply HJ; auto; [apply in_app_iff; auto|]. intros ->. apply N. apply in_app_iff. auto.
Qed.
Lemma fold_none : forall S (f : S -> nat -> res S) l s, (forall u, In u l -> f s u = Ok s) -> foldM f l s = Ok s.
Proof. intros S f l s. induction l as [|a m IH]; intros Q; auto. cbn [foldM]. rewrite Q by (left; auto). apply IH. intros u Hu. apply Q. right. auto. Qed.
Lemma memb_in : forall v l, existsb (Nat.eqb v) l = true <-> In v l.
Proof. intros. rewrite existsb_exists. split; [intros [x [H E]]; apply Nat.eqb_eq in E; subst; auto|intros H; exists v; split; auto; apply Nat.eqb_refl]. Qed.
Lemma remove_first_app : forall v l1 l2, ~ In v l1 -> remove_first v (l1 ++ v :: l2) = l1 ++ l2.
Proof.
  induction l1 as [|a l1 IH]; intros l2 N; simpl; [rewrite Nat.eqb_refl; auto|]. rewrite (proj2 (Nat.eqb_neq a v)) by (intros ->; apply N; left; auto). rewrite IH; auto. intros X. apply N. right. auto.
Qed.

(** ** measure *)
Lemma measure_run : forall pos t p g v, wfg g -> here pos g v -> In v (goutputs g) ->
  measure pos t p g = Ok (set_outputs (remove_first v (goutputs g)) (set_phase v p (set_type v t g))).
Proof.
  intros pos t p g v W H O. unfold measure.
  rewrite (fold_one _ (measure1 pos t p) (fun s => fst (fst s) = g) (fun s => fst (fst s) = set_phase v p (set_type v t g)) (vertices g) v (g, goutputs g, false)); auto; try exact (wf_nd g W); try exact (proj1 H).
  - unfold measure1. rewrite (here_at pos g v v H (proj1 H)), Nat.eqb_refl, (proj2 (memb_in v (goutputs g)) O). reflexivity.
  - intros [[g1 o] f] u Hu D E. cbn [fst] in E. subst g1. unfold measure1. rewrite (here_at pos g v u H Hu), (proj2 (Nat.eqb_neq u v)) by auto. auto.
  - intros [[g1 o] f] u Hu D E. cbn [fst] in E. subst g1. unfold measure1. change (at_pos pos (set_phase v p (set_type v t g)) u) with (at_pos pos g u).
    rewrite (here_at pos g v u H Hu), (proj2 (Nat.eqb_neq u v)) by auto. auto.
  - intros s1. unfold measure1. rewrite (here_at pos g v v H (proj1 H)), Nat.eqb_refl, (proj2 (memb_in v (goutputs g)) O). intros X. injection X as <-. reflexivity.
Qed.
Lemma measure_done : forall pos t p g v, wfg g -> here pos g v -> ~ In v (goutputs g) -> measure pos t p g = Err ValueError.
Proof.
  intros pos t p g v W H O. unfold measure. assert (O' : existsb (Nat.eqb v) (goutputs g) = false) by (destruct (existsb (Nat.eqb v) (goutputs g)) eqn:E; auto; apply memb_in in E; contradiction).
  assert (E : measure1 pos t p (g, goutputs g, false) v = Err ValueError) by (unfold measure1; rewrite (here_at pos g v v H (proj1 H)), Nat.eqb_refl, O'; auto).
  rewrite (fold_one _ (measure1 pos t p) (fun s => fst (fst s) = g) (fun s => False) (vertices g) v (g, goutputs g, false)); auto; try exact (wf_nd g W); try exact (proj1 H).
  - rewrite E. auto.
  - intros [[g1 o] f] u Hu D E1. cbn [fst] in E1. subst g1. unfold measure1. rewrite (here_at pos g v u H Hu), (proj2 (Nat.eqb_neq u v)) by auto. auto.
  - intros s u _ _ [].
  - intros s1. rewrite E. discriminate.
Qed.
Lemma measure_nowhere : forall pos t p g, (forall u, In u (vertices g) -> ~ lies pos g u) -> measure pos t p g = Err ValueError.
Proof.
  intros pos t p g H. unfold measure. rewrite fold_none; auto. intros u Hu. unfold measure1. destruct (at_pos pos g u) eqn:A; auto. apply at_pos_iff in A. exfalso. exact (H u Hu A).
Qed.

(** the weight of a wire with a Hadamard at its first end *)
Lemma wt_tog : forall e a d, wt (Some (toggle_edge e)) a d = (sq2p (-1) * (wt (Some e) false d + (if a then - C1 else C1) * wt (Some e) true d))%C.
Proof.
  assert (Hh := sq2p_half). intros [] a d; cbn [toggle_edge wt]; unfold dlt, sgn; destruct a, d; cbn [andb Bool.eqb]; try ring.
  - transitivity (sq2p (-1) * sq2p (-1) * (C1 + C1))%C; [symmetry; exact Hh|ring].
  - transitivity (sq2p (-1) * sq2p (-1) * (C1 + C1))%C; [symmetry; exact Hh|ring].
Qed.

Section Meas.
  Variables (g : graph) (v : nat) (t : vtype) (p : Qc) (os : list nat).
  Hypothesis W : wfg g.
  Hypothesis Hv : In v (vertices g).
  Hypothesis Bv : vty g v = BOUNDARY.
  Hypothesis NL : edge_type g v v = None.
  Let g' := set_outputs os (set_phase v p (set_type v t g)).
  Lemma meas_wf : wfg g'.
  Proof. assert (X : wfg (set_phase v p (set_type v t g))) by (apply set_phase_wf; [apply set_type_wf; auto|auto]). destruct X. constructor; auto. Qed.
  Lemma meas_vty : forall u, vty g' u = if Nat.eqb u v then t else vty g u.
  Proof. intros u. change (vty g' u) with (vty (set_type v t g) u). apply ColorProofs.vty_set_type. Qed.
  Lemma meas_ph : forall u, phase g' u = if Nat.eqb u v then qmod2 p else phase g u.
  Proof. intros u. change (phase g' u) with (phase (set_phase v p g) u). unfold phase, set_phase. cbn [gphase with_phase]. destruct (Nat.eqb u v) eqn:Ew; [apply Nat.eqb_eq in Ew; subst; rewrite dget_dset_eq; auto|apply Nat.eqb_neq in Ew; rewrite dget_dset_neq; auto]. Qed.
  Lemma meas_sem : t <> BOUNDARY -> forall (m : bool -> bool -> C),
    (forall a y, integL (v :: keep [v] g) g' (upd y v a) = (m a false * integL (v :: keep [v] g) g (upd y v false) + m a true * integL (v :: keep [v] g) g (upd y v true))%C) ->
    forall b, sem g' b = ((m false false + m true false) * sem g (upd b v false) + (m false true + m true true) * sem g (upd b v true))%C.
  Proof.
    intros Tt m Hm b. assert (PG : Permutation (vertices g) ([v] ++ keep [v] g)) by (apply vertices_split; auto).
    assert (Nc : ~ In v (keep [v] g)) by (rewrite in_keep; simpl; tauto).
    rewrite (sem_split g' [v] (keep [v] g)); [|apply meas_wf|exact PG|intros u [<-|[]]; unfold isB; rewrite meas_vty, Nat.eqb_refl; destruct t; auto; congruence].
    rewrite !(sem_split g [] (v :: keep [v] g)) by (auto; intros u []). cbn [app sumv].
    set (I := filter (fun u => negb (isB g u)) (v :: keep [v] g)).
    assert (EI : I = filter (fun u => negb (isB g' u)) (keep [v] g)).
    { unfold I. cbn [filter]. unfold isB at 1. rewrite Bv. cbn [vtype_eqb negb]. apply filter_ext_in. intros u Hu. unfold isB. rewrite meas_vty, (proj2 (Nat.eqb_neq u v)); auto. intros ->. auto. }
    rewrite <- EI. assert (NI : ~ In v I) by (rewrite EI; rewrite filter_In; tauto).
    rewrite !BasicColor.sumv_upd_in by auto.
    rewrite (sumv_ext _ _ (fun y => (m false false + m true false) * integL (v :: keep [v] g) g (upd y v false) + (m false true + m true true) * integL (v :: keep [v] g) g (upd y v true))%C).
    2:{ intros y. rewrite !Hm. ring. }
    rewrite sumv_plus. rewrite !(sumv_mult_indep I (fun _ => _)) by auto. reflexivity.
  Qed.
  Lemma meas_core : forall y, integL (keep [v] g) g' y = integL (keep [v] g) g y.
  Proof.
    assert (Nc : forall u, In u (keep [v] g) -> Nat.eqb u v = false) by (intros u Hu; apply Nat.eqb_neq; rewrite in_keep in Hu; simpl in Hu; intros ->; tauto).
    intros y. unfold integL. f_equal; [f_equal|].
    - apply cprod_ext. intros u Hu. unfold pw, isB. rewrite meas_vty, meas_ph, (Nc u Hu). auto.
    - apply pprod_ext. intros u w Hu Hw. unfold ew, isX. rewrite !meas_vty, (Nc u Hu), (Nc w Hw). reflexivity.
  Qed.
  Lemma meas_loc : forall h, (h = g \/ h = g') -> forall y, integL (v :: keep [v] g) h y = (integL (keep [v] g) h y * (pw h v (y v) * cprod (fun u => ew h v u (y v) (y u)) (neighbors g v)))%C.
  Proof.
    intros h Hh y. change (v :: keep [v] g) with ([v] ++ keep [v] g). rewrite integL_app. fold (loc h [v] (keep [v] g) y).
    assert (Wh : wfg h) by (destruct Hh as [->| ->]; [auto|apply meas_wf]). assert (Eh : forall a b, edge_type h a b = edge_type g a b) by (destruct Hh as [->| ->]; auto).
    rewrite (loc_one h v (keep [v] g) (neighbors g v)); auto; [apply keep_nd; auto|apply neighbors_nd; auto|].
    intros u. rewrite Eh, in_keep, neighbors_spec. simpl. split; [|tauto]. intros X. split; auto. split; [destruct (edge_type g v u) eqn:E; [eapply edge_in_r; eauto|congruence]|]. intros [<-|[]]. auto.
  Qed.
End Meas.

(** the projection onto the vector <0| + e^{i pi p} <1|, no conjugate *)
Lemma measure_z_ok : forall pos p g v l1 l2, wfg g -> noloop g -> here pos g v -> vty g v = BOUNDARY -> goutputs g = l1 ++ v :: l2 -> ~ In v l1 ->
  exists g', measure pos ZSP p g = Ok g' /\ wfg g' /\ noloop g' /\ ginputs g' = ginputs g /\ goutputs g' = l1 ++ l2 /\ vertices g' = vertices g /\
    forall b, sem g' b = (sem g (upd b v false) + cexp p * sem g (upd b v true))%C.
Proof.
  intros pos p g v l1 l2 W NL H Bv O N. eexists. split; [apply (measure_run pos ZSP p g v); auto; rewrite O, in_app_iff; simpl; auto|].
  rewrite O, remove_first_app by auto. set (g' := set_outputs _ _). assert (Hv := proj1 H).
  assert (W' : wfg g') by (apply meas_wf; auto). split; auto. split; [exact NL|]. repeat (split; [reflexivity|]).
  intros b. unfold g'. rewrite (meas_sem g v ZSP p (l1 ++ l2) W Hv Bv) with (m := fun a c => if Bool.eqb a c then ephase p a else C0); [cbn [Bool.eqb ephase]; ring|discriminate|].
  intros a y. fold g'. assert (Nc : ~ In v (keep [v] g)) by (rewrite in_keep; simpl; tauto).
  assert (M : forall z, integL (v :: keep [v] g) g' z = (ephase p (z v) * integL (v :: keep [v] g) g z)%C).
  { intros z. rewrite (meas_loc g v ZSP p (l1 ++ l2)); auto. rewrite (meas_loc g v ZSP p (l1 ++ l2) W Hv) with (h := g); auto. unfold g' at 1. rewrite (meas_core g v).
    assert (EW : cprod (fun u => ew g' v u (z v) (z u)) (neighbors g v) = cprod (fun u => ew g v u (z v) (z u)) (neighbors g v)).
    { apply cprod_ext. intros u _. unfold ew, isX, g'. rewrite !meas_vty, Nat.eqb_refl, Bv. destruct (Nat.eqb u v) eqn:E; [apply Nat.eqb_eq in E; subst; rewrite Bv|]; reflexivity. }
    rewrite EW. unfold pw, isB, g'. rewrite meas_vty, meas_ph, Nat.eqb_refl, Bv, eph_mod. cbn [vtype_eqb]. ring. }
  rewrite M, upd_same. destruct a; cbn [Bool.eqb]; ring.
Qed.
Lemma measure_x_ok : forall pos p g v w l1 l2, wfg g -> noloop g -> here pos g v -> vty g v = BOUNDARY -> neighbors g v = [w] -> goutputs g = l1 ++ v :: l2 -> ~ In v l1 ->
  exists g', measure pos XSP p g = Ok g' /\ wfg g' /\ noloop g' /\ ginputs g' = ginputs g /\ goutputs g' = l1 ++ l2 /\ vertices g' = vertices g /\
    forall b, sem g' b = (sq2p (-1) * ((C1 + cexp p) * sem g (upd b v false) + (C1 - cexp p) * sem g (upd b v true)))%C.
Proof.
  intros pos p g v w l1 l2 W NL H Bv NW O N. eexists. split; [apply (measure_run pos XSP p g v); auto; rewrite O, in_app_iff; simpl; auto|].
  rewrite O, remove_first_app by auto. set (g' := set_outputs _ _). assert (Hv := proj1 H).
  assert (W' : wfg g') by (apply meas_wf; auto). split; auto. split; [exact NL|]. repeat (split; [reflexivity|]).
  intros b. unfold g'. rewrite (meas_sem g v XSP p (l1 ++ l2) W Hv Bv) with (m := fun a c => (ephase p a * (sq2p (-1) * sgn (a && c)))%C); [cbn [andb ephase sgn]; unfold sgn; ring|discriminate|].
  intros a y. fold g'. assert (Nc : ~ In v (keep [v] g)) by (rewrite in_keep; simpl; tauto).
  assert (Dw : w <> v). { intros ->. assert (X : In v (neighbors g v)) by (rewrite NW; left; auto). apply neighbors_spec in X. apply X, NL. }
  assert (IG : forall c, integL (v :: keep [v] g) g (upd y v c) = (integL (keep [v] g) g y * ew g v w c (y w))%C).
  { intros c. rewrite (meas_loc g v XSP p (l1 ++ l2) W Hv) with (h := g); auto. rewrite integL_indep, NW by auto. cbn [cprod map]. unfold pw, isB. rewrite Bv. cbn [vtype_eqb]. rewrite upd_same, upd_other by auto. ring. }
  assert (IH : forall c, integL (v :: keep [v] g) g' (upd y v c) = (integL (keep [v] g) g y * (ephase p c * ew g' v w c (y w)))%C).
  { intros c. rewrite (meas_loc g v XSP p (l1 ++ l2)); auto. unfold g' at 1. rewrite (meas_core g v). rewrite integL_indep, NW by auto. cbn [cprod map]. unfold pw, isB, g'. rewrite meas_vty, meas_ph, Nat.eqb_refl, eph_mod. cbn [vtype_eqb]. rewrite upd_same, upd_other by auto. ring. }
  rewrite IH, !IG. unfold ew, isX, g'. rewrite !meas_vty, Nat.eqb_refl, (proj2 (Nat.eqb_neq w v)), Bv by auto. cbn [vtype_eqb].
  change (edge_type (set_outputs (l1 ++ l2) (set_phase v p (set_type v XSP g))) v w) with (edge_type g v w).
  assert (X : edge_type g v w <> None) by (apply neighbors_spec; rewrite NW; left; auto). destruct (edge_type g v w) as [e|]; [|congruence]. cbn [option_map].
  assert (T : tog (xorb true (vtype_eqb (vty g w) XSP)) e = toggle_edge (tog (xorb false (vtype_eqb (vty g w) XSP)) e)) by (destruct (vtype_eqb (vty g w) XSP), e; reflexivity).
  rewrite T, wt_tog. set (e' := tog _ e). destruct a; unfold sgn; cbn [andb]; ring.
Qed.
(** what has been measured cannot be measured again *)
Lemma measure_twice : forall pos t t' p p' g v, wfg g -> here pos g v -> NoDup (goutputs g) -> In v (goutputs g) ->
  exists g', measure pos t p g = Ok g' /\ measure pos t' p' g' = Err ValueError.
Proof.
  intros pos t t' p p' g v W H ND O. eexists. split; [apply (measure_run pos t p g v); auto|]. apply measure_done with (v := v).
  - apply meas_wf; auto. apply H.
  - exact H.
  - cbn [goutputs set_outputs]. apply in_split in O. destruct O as [l1 [l2 E]]. rewrite E in *. assert (X := NoDup_remove_2 _ _ _ ND). rewrite remove_first_app; auto. intros Q. apply X. apply in_app_iff. auto.
Qed.
