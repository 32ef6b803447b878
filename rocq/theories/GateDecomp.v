(** The remaining decompositions, and the statement for all gates. *)
From Coq Require Import Reals ZArith QArith Qcanon List Bool Arith Lia FunctionalExtensionality.
From Verif Require Import CNum Base ScalarModel ScalarProofs GraphSem SumLemmas GateModel CircSpec GateProofs.
Import ListNotations.
Open Scope C_scope.

(** ** bits *)
Ltac neqs := repeat match goal with H : ?a <> ?b |- _ => first [rewrite (proj2 (Nat.eqb_neq a b) H) | rewrite (proj2 (Nat.eqb_neq b a) (not_eq_sym H))] end.
Ltac bits_at q := repeat match goal with |- context [Nat.eqb q ?v] => destruct (Nat.eqb_spec q v); subst end; try congruence; auto.
Lemma cden_nil : forall s, cden [] s = s.
Proof. reflexivity. Qed.
Lemma gden_cnot : forall c t s, gden (GCNOT c t) s = fun x => s (upd x t (xorb (x t) (x c))).
Proof. reflexivity. Qed.
Lemma gden_z : forall k t p s, gden (GZ k t p) s = fun x => (if x t then cexp p else C1) * s x.
Proof. intros. apply state_ext. intros x. simpl. apply op1_P. Qed.

Lemma parity_upd : forall l x v b, ~ In v l -> parity l (upd x v b) = parity l x.
Proof. induction l as [|a l IH]; intros x v b H; simpl; auto. rewrite IH by (simpl in H; tauto). rewrite upd_other; auto. intros ->. simpl in H. tauto. Qed.
Lemma parity_den : forall p l a s, NoDup (a :: l) -> exists gs, parity_basic p (a :: l) = Ok gs /\ cden gs s = gden (GParity p (a :: l)) s.
Proof.
  intros p l a s ND. eexists. split; [reflexivity|]. revert a ND s. induction l as [|b l IH]; intros a ND s.
  - simpl. apply state_ext. intros x. rewrite op1_P, xorb_false_r. reflexivity.
  - inversion ND as [|? ? NA NB]; subst. specialize (IH b NB).
    change (cnot_chain (a :: b :: l)) with (GCNOT a b :: cnot_chain (b :: l)). cbn [rev].
    replace (last (a :: b :: l) a) with (last (b :: l) b) by (clear; revert b; induction l as [|c l IH]; intros b; simpl in *; auto; destruct l; auto; rewrite <- IH; destruct l; auto).
    transitivity (gden (GCNOT a b) (cden (cnot_chain (b :: l) ++ [ZPhase (last (b :: l) b) p] ++ rev (cnot_chain (b :: l))) (gden (GCNOT a b) s))).
    { generalize (cnot_chain (b :: l)) (ZPhase (last (b :: l) b) p). intros L z. change ((GCNOT a b :: L) ++ [z] ++ rev L ++ [GCNOT a b]) with (GCNOT a b :: L ++ z :: rev L ++ [GCNOT a b]).
      rewrite cden_cons, !cden_app, !cden_cons, !cden_app. reflexivity. }
    rewrite IH. apply state_ext. intros x. rewrite gden_cnot.
    assert (Nab : a <> b) by (intros ->; apply NA; left; auto). inversion NB as [|? ? NB1 _]; subst.
    unfold gden. cbn [parity fold_right]. rewrite upd_same. change (fold_right (fun t b0 => xorb (upd x b (xorb (x b) (x a)) t) b0) false l) with (parity l (upd x b (xorb (x b) (x a)))).
    rewrite parity_upd by auto. rewrite upd_shadow, (upd_other x b _ a) by auto.
    replace (xorb (xorb (x b) (x a)) (x a)) with (x b) by (destruct (x a), (x b); auto). rewrite upd_id.
    f_equal. unfold parity. generalize (fold_right (fun t b0 => xorb (x t) b0) false l). intros w. destruct (x a), (x b), w; reflexivity.
Qed.

Section Two.
  Variables (c t : nat).
  Hypothesis N : c <> t.
  Lemma swap_den : forall s, cden [GCNOT c t; GCNOT t c; GCNOT c t] s = gden (GSWAP c t) s.
  Proof.
    intros. rewrite !cden_cons, !gden_cnot. apply state_ext. intros x. simpl. apply f_equal. apply functional_extensionality. intros q.
    unfold swapq, upd. rewrite !Nat.eqb_refl. neqs. bits_at q; destruct (x t), (x c); auto.
  Qed.
  Lemma xcx_den : forall s, cden [GHAD c; GCNOT c t; GHAD c] s = gden (GXCX c t) s.
  Proof.
    intros. assert (Q := sq2_sq). rewrite !cden_cons, gden_cnot. apply state_ext. intros x. cbn [gden cden fold_left]. unfold op1, flip. rewrite ?upd_same.
    rewrite ?(upd_other _ t _ c), ?(upd_other _ c _ t) by auto. rewrite ?upd_same.
    repeat rewrite (upd_comm _ t c) by auto. rewrite ?upd_shadow. rewrite !xorb_false_r, !xorb_true_r.
    assert (E1 : forall b, upd (upd x c b) t (x t) = upd x c b) by (intros; rewrite upd_comm by auto; rewrite upd_id; auto).
    rewrite ?E1. unfold mH, mk2. destruct (x c) eqn:Ec; simpl negb; rewrite <- ?Ec; rewrite ?upd_id; rewrite ?Ec; field [Q]; nz.
  Qed.
  Lemma zphase_ok : forall k p s, gden (GZ k t p) s = fun x => (if x t then cexp p else C1) * s x.
  Proof. intros. apply gden_z. Qed.
End Two.
Section Three.
  Variables (a b t : nat).
  Hypotheses (Nab : a <> b) (Nat_ : a <> t) (Nbt : b <> t).
  Ltac eval_upd := unfold upd; rewrite ?Nat.eqb_refl; neqs; rewrite ?Nat.eqb_refl; cbv beta iota.
  Lemma ccz_den : forall s, cden (ccz_basic a b t) s = gden (GCCZ a b t) s.
  Proof.
    intros s. unfold ccz_basic, Tg. rewrite !cden_cons, !gden_cnot, !gden_z. rewrite ?cden_nil. apply state_ext. intros x. cbv beta. cbn [gden].
    eval_upd.
    match goal with |- context [s ?y] => replace y with x end.
    2:{ apply functional_extensionality. intros q. bits_at q; destruct (x a), (x b), (x t); auto. }
    rewrite cexp_m14. assert (I := Ci2). assert (J := cexp_14_sq). assert (W := cexp_neq0 (frac 1 4)). generalize dependent (cexp (frac 1 4)). intros w J W.
    assert (J4 : w * w * w * w = - C1) by (transitivity ((w * w) * (w * w)); [ring|rewrite J; exact I]).
    destruct (x a), (x b), (x t); simpl; unfold sgn; try (field; auto; fail).
    apply Cmult_cancel_l with (w * w * w); [repeat apply Cmult_neq0; auto|].
    transitivity ((w * w * w * w) * (w * w * w) * s x); [field; auto|rewrite J4; ring].
  Qed.
  Lemma tof_den : forall s, cden (tof_basic a b t) s = gden (GTof a b t) s.
  Proof.
    intros s. change (tof_basic a b t) with ([GHAD t] ++ ccz_basic a b t ++ [GHAD t]). rewrite !cden_app, ccz_den. rewrite !cden_cons. rewrite ?cden_nil.
    apply state_ext. intros x. cbn [gden]. unfold op1. cbv beta. rewrite ?(upd_other x t _ a), ?(upd_other x t _ b) by auto. rewrite ?upd_same, ?upd_shadow.
    assert (Q := sq2_sq). unfold mH, mk2.
    destruct (x t) eqn:E, (x a && x b) eqn:F; simpl; unfold sgn; try rewrite F; rewrite ?andb_false_r, ?andb_true_r; simpl; rewrite ?upd_same, ?upd_shadow; field [Q]; nz.
  Qed.
  Lemma cswap_den : forall s, cden ([GCNOT t b] ++ tof_basic a b t ++ [GCNOT t b]) s = gden (GCSWAP a b t) s.
  Proof.
    intros s. rewrite !cden_app, tof_den, !cden_cons, !gden_cnot. rewrite ?cden_nil. apply state_ext. intros x. cbn [gden]. unfold swapq.
    eval_upd. destruct (x a) eqn:E; apply f_equal; apply functional_extensionality; intros q; bits_at q; destruct (x b), (x t); neqs; auto.
  Qed.
End Three.

Lemma half_12 : half (frac 1 2) = frac 1 4.
Proof. qcomp. Qed.
Lemma cos_12 : cosh_ (frac 1 2) = / sq2.
Proof.
  unfold cosh_. replace (PI * (Q2R (this (frac 1 2)) / 2))%R with (PI/4)%R.
  - rewrite cos_PI4. unfold sq2. rewrite <- RtoC_inv by apply sqrt2_neq0. f_equal. field. apply sqrt2_neq0.
  - unfold frac. rewrite Q2R_Qc_Q2Qc. unfold Q2R. simpl. field.
Qed.
Lemma sin_12 : sinh_ (frac 1 2) = / sq2.
Proof.
  unfold sinh_. replace (PI * (Q2R (this (frac 1 2)) / 2))%R with (PI/4)%R.
  - rewrite sin_PI4. unfold sq2. rewrite <- RtoC_inv by apply sqrt2_neq0. f_equal. field. apply sqrt2_neq0.
  - unfold frac. rewrite Q2R_Qc_Q2Qc. unfold Q2R. simpl. field.
Qed.
Lemma cexp_m1 : cexp (frac (-1) 1) = - C1.
Proof. replace (frac (-1) 1) with (- (1))%Qc by qcomp. rewrite cexp_opp, cexp_1, Cconj_opp, Cconj_1. reflexivity. Qed.
Section Rxx.
  Variables (c t : nat).
  Hypothesis N : c <> t.
  (** the middle part is [e^{-i p}] on odd parity of Z on c and X on t *)
  Lemma mid_den : forall p s, cden [GHAD t; GCNOT c t; ZPhase t (- p)%Qc; GCNOT c t; GHAD t] s =
    cond c (mXP (- p)) (mmul (mmul mH mX) (mmul (mP (- p)) (mmul mX mH))) t s.
  Proof.
    intros. rewrite !cden_cons. rewrite ?cden_nil. unfold ZPhase. rewrite !(cnot_cond c t). cbn [gden]. rewrite !(op1_cond c t), !(cond_cond c t N).
    assert (Q := sq2_sq). apply (cond_ext c t); intros i j; mexpand; destruct i, j; field [Q]; nz.
  Qed.
  Lemma rxx_den : forall p s, cden (u3_basic c (frac 1 2) p 0 ++ [GHAD t; GCNOT c t; ZPhase t (- p)%Qc; GCNOT c t; GHAD t] ++
                      u2_basic c (frac (-1) 1) (qmod2 (1 - p))) s = fun x => (- / cexp (half p)) * gden (GRXX c t p) s x.
  Proof.
    intros. rewrite !cden_app, u3_op, u2_op, mid_den. apply state_ext. intros x. cbn [gden]. unfold cond, op1, flip.
    rewrite ?upd_same. rewrite ?(upd_other _ t _ c), ?(upd_other _ c _ t) by auto. rewrite ?upd_same.
    repeat rewrite (upd_comm _ t c) by auto. rewrite ?upd_shadow.
    assert (X0 : s x = s (upd (upd x c (x c)) t (x t))) by (rewrite upd_id, upd_id; auto). rewrite X0. clear X0.
    assert (Q := sq2_sq). assert (I := Ci2). mexpand. rewrite cos_12, sin_12. unfold zu3, Qcminus. rewrite half_12, Qcplus_0_r.
    autorewrite with ex. rewrite cexp_m1, (cexp_half_add p), cexp_14. assert (W := cexp_neq0 (half p)). generalize dependent (cexp (half p)). intros w W.
    destruct (x c), (x t); simpl negb; cbv iota;
    generalize (s (upd (upd x c false) t false)) (s (upd (upd x c false) t true)) (s (upd (upd x c true) t false)) (s (upd (upd x c true) t true)); intros a0 a1 a2 a3;
    field [Q I]; nz; auto.
  Qed.
End Rxx.

(** ** all gates *)
Definition basic (g : gate) : Prop :=
  match g with GZ _ _ _ | GX _ _ _ | GHAD _ | GCNOT _ _ | GCZ _ _ | GFSim _ _ _ _ => True | _ => False end.
Definition fine (qs : list nat) (g : gate) : Prop := basic g /\ gate_ok g /\ incl (gate_qubits g) qs.
Lemma unit_m1 : unitc (- C1).
Proof. rewrite <- cexp_1. apply unit_cexp. Qed.
Lemma unit_inv : forall p, unitc (/ cexp p).
Proof. intros. rewrite <- cexp_inv. apply unit_cexp. Qed.
Lemma unit_opp : forall z, unitc z -> unitc (- z).
Proof. intros z H. unfold unitc in *. rewrite Cconj_opp. rewrite <- H. ring. Qed.
Lemma fine1 : forall g qs, basic g -> gate_qubits g = [hd 0%nat (gate_qubits g)] -> In (hd 0%nat (gate_qubits g)) qs -> match g with GFSim _ _ _ _ => False | GRZZ _ _ _ _ => False | _ => True end -> fine qs g.
Proof.
  intros g qs B E H F. split; auto. rewrite E in *. split; [split; [|split]|].
  - rewrite E. constructor; [simpl; tauto|constructor].
  - rewrite E. discriminate.
  - destruct g; auto; contradiction.
  - rewrite E. intros q [<-|[]]. auto.
Qed.
Lemma fine_cnot : forall c t qs, c <> t -> In c qs -> In t qs -> fine qs (GCNOT c t).
Proof.
  intros. split; [exact I|]. split; [split; [|split; [discriminate|exact I]]|].
  - simpl. constructor; [simpl; intuition|constructor; [simpl; tauto|constructor]].
  - intros q [<-|[<-|[]]]; auto.
Qed.
Lemma fine_z : forall k t p qs, In t qs -> fine qs (GZ k t p).
Proof. intros. apply fine1; simpl; auto. Qed.
Lemma fine_x : forall k t p qs, In t qs -> fine qs (GX k t p).
Proof. intros. apply fine1; simpl; auto. Qed.
Lemma fine_h : forall t qs, In t qs -> fine qs (GHAD t).
Proof. intros. apply fine1; simpl; auto. Qed.
Ltac fines := repeat apply Forall_cons; try apply Forall_nil; try (apply fine_z || apply fine_x || apply fine_h || apply fine_cnot); simpl; auto.
Lemma fine_self : forall g, basic g -> gate_ok g -> Forall (fine (gate_qubits g)) [g].
Proof. intros g B G. constructor; [|constructor]. split; auto. split; auto. apply incl_refl. Qed.
Lemma chain_fine : forall ts qs, NoDup ts -> incl ts qs -> Forall (fine qs) (cnot_chain ts).
Proof.
  induction ts as [|a ts IH]; intros qs ND HI; [constructor|]. destruct ts as [|b ts]; [constructor|]. inversion ND as [|? ? NA NB]; subst. cbn [cnot_chain].
  constructor; [apply fine_cnot|apply IH; auto; intros q Hq; apply HI; right; auto].
  - intros ->. apply NA. left. auto.
  - apply HI. left. auto.
  - apply HI. right. left. auto.
Qed.
Lemma last_in : forall (l : list nat) a, In (last (a :: l) a) (a :: l).
Proof.
  intros l a. assert (H : forall (l : list nat) b d, In (last (b :: l) d) (b :: l)); [|apply H].
  clear. induction l as [|c l IH]; intros b d; [left; auto|]. right. change (last (b :: c :: l) d) with (last (c :: l) d). apply IH.
Qed.
Lemma parity_fine : forall p ts gs, NoDup ts -> parity_basic p ts = Ok gs -> Forall (fine ts) gs.
Proof.
  intros p [|a l] gs ND E; [discriminate|].
  assert (X : gs = cnot_chain (a :: l) ++ [ZPhase (last (a :: l) a) p] ++ rev (cnot_chain (a :: l))) by (inversion E; reflexivity). rewrite X.
  apply Forall_app. split; [apply chain_fine; auto; apply incl_refl|].
  apply Forall_app. split; [constructor; [|constructor]; apply fine_z, last_in|]. apply Forall_rev, chain_fine; auto. apply incl_refl.
Qed.
Theorem basic_ok : forall g, gate_ok g -> exists gs z, to_basic_gates g = Ok gs /\ unitc z /\ (forall s, cden gs s = fun x => z * gden g s x) /\ Forall (fine (gate_qubits g)) gs.
Proof.
  intros g G. assert (G0 := G). destruct G as [ND [NE EX]].
  assert (D2 : forall c t, gate_qubits g = [c; t] -> c <> t).
  { intros c t E. rewrite E in ND. inversion ND as [|? ? X _]; subst. intros ->. apply X. left. auto. }
  assert (D3 : forall a b t, gate_qubits g = [a; b; t] -> a <> b /\ a <> t /\ b <> t).
  { intros a b t E. rewrite E in ND. inversion ND as [|? ? X Y]; subst. inversion Y as [|? ? X' _]; subst. simpl in *. intuition; subst; tauto. }
  assert (self : basic g -> to_basic_gates g = Ok [g] -> exists gs z, to_basic_gates g = Ok gs /\ unitc z /\ (forall s, cden gs s = fun x => z * gden g s x) /\ Forall (fine (gate_qubits g)) gs).
  { intros B E. exists [g], C1. split; auto. split; [apply unit_1|]. split; [|apply fine_self; auto]. intros s. apply state_ext. intros x. simpl. ring. }
  assert (one : forall gs, to_basic_gates g = Ok gs -> (forall s, cden gs s = gden g s) -> Forall (fine (gate_qubits g)) gs ->
     exists gs z, to_basic_gates g = Ok gs /\ unitc z /\ (forall s, cden gs s = fun x => z * gden g s x) /\ Forall (fine (gate_qubits g)) gs).
  { intros gs E H F. exists gs, C1. split; auto. split; [apply unit_1|]. split; auto. intros s. rewrite H. apply state_ext. intros x. ring. }
  destruct g; try (apply self; [exact I|reflexivity]); cbn [gate_qubits] in *;
    try (assert (NN := D2 _ _ eq_refl)); try (destruct (D3 _ _ _ eq_refl) as [N1 [N2 N3]]); clear D2 D3.
  - (* Y *) exists (yphase_basic target phase), (/ cexp (half phase)). split; auto. split; [apply unit_inv|]. split; [intros; apply y_den|]. unfold yphase_basic, ZPhase, XPhase. fines.
  - (* XCX *) eapply one; [reflexivity|intros; apply xcx_den; auto|fines].
  - eapply one; [reflexivity|intros; apply swap_den; auto|fines].
  - eapply one; [reflexivity|intros; apply cy_den; auto|unfold Sg; fines].
  - eapply one; [reflexivity|intros; apply csx_den; auto|]. unfold cphase_basic, ZPhase. simpl app. fines.
  - (* CHAD *) eexists _, (cexp (frac 1 4)). split; [reflexivity|]. split; [apply unit_cexp|]. split; [intros; apply chad_den; auto|]. unfold Sg, Tg, NOTg. fines.
  - (* CRX *) eexists _, (- C1). split; [reflexivity|]. split; [apply unit_m1|]. split; [intros; apply crx_den; auto|]. unfold u3_basic, ZPhase, XPhase. simpl app. fines.
  - eapply one; [reflexivity|intros; apply cry_den; auto|]. unfold yphase_basic, ZPhase, XPhase. simpl app. fines.
  - eapply one; [reflexivity|intros; apply crz_den; auto|]. unfold ZPhase. fines.
  - eapply one; [reflexivity|intros; apply cphase_den; auto|]. unfold cphase_basic, ZPhase. fines.
  - (* RXX *) eexists _, (- / cexp (half phase)). split; [reflexivity|]. split; [apply unit_opp, unit_inv|]. split; [intros; apply rxx_den; auto|].
    unfold u3_basic, u2_basic, ZPhase, XPhase. simpl app. fines.
  - (* Parity *) destruct targets as [|a l]; [congruence|]. destruct (parity_den phase l a (fun _ => C0) ND) as [gs [E _]]. apply (one gs); auto.
    + intros s. destruct (parity_den phase l a s ND) as [gs' [E' H']]. rewrite E in E'. inversion E'; subst. exact H'.
    + apply (parity_fine phase); auto.
  - (* RZZ *) subst targets. destruct (parity_den phase [target] control (fun _ => C0) ND) as [gs [E _]]. exists gs, (cexp (half phase)). split; auto. split; [apply unit_cexp|].
    split; [|apply (parity_fine phase); auto]. intros s. destruct (parity_den phase [target] control s ND) as [gs' [E' H']]. rewrite E in E'. inversion E'; subst. rewrite H'.
    apply state_ext. intros x. cbn [gden parity fold_right]. rewrite xorb_false_r. rewrite cexp_inv, (cexp_half_add phase). destruct (xorb (x control) (x target)); field; nz.
  - eapply one; [reflexivity|intros; apply ccz_den; auto|]. unfold ccz_basic, Tg. fines.
  - eapply one; [reflexivity|intros; apply tof_den; auto|]. unfold tof_basic, Tg. fines.
  - eapply one; [reflexivity|intros; apply cswap_den; auto|]. unfold tof_basic, Tg. simpl app. fines.
  - (* U2 *) eexists _, (cexp (frac 1 4)). split; [reflexivity|]. split; [apply unit_cexp|]. split; [intros; apply u2_den; auto|]. unfold u2_basic, ZPhase, XPhase. fines.
  - (* U3 *) eexists _, (zu3 theta). split; [reflexivity|]. split; [unfold zu3; rewrite <- cexp_12; apply unit_mult; apply unit_cexp|]. split; [intros; apply u3_den; auto|]. unfold u3_basic, ZPhase, XPhase. fines.
  - eexists _, (- C1). split; [reflexivity|]. split; [apply unit_m1|]. split; [intros; apply cu3_den; auto|]. unfold cu3_basic, u3_basic, ZPhase, XPhase. simpl app. fines.
  - eexists _, (- C1). split; [reflexivity|]. split; [apply unit_m1|]. split; [intros; apply cu_den; auto|]. unfold cu3_basic, u3_basic, ZPhase, XPhase. simpl app. fines.
Qed.
Definition circ_basic (c : circuit) : Prop := forall g, In g (cgates c) -> basic g /\ gate_in (cqubits c) g.
Theorem c_basic_ok : forall c, circ_ok c -> exists c' z, c_basic c = Ok c' /\ cqubits c' = cqubits c /\ circ_basic c' /\ unitc z /\ forall s x, cden (cgates c') s x = z * cden (cgates c) s x.
Proof.
  intros [n gs] H. unfold c_basic, circ_ok in *. cbn [cgates cqubits] in *.
  assert (X : exists l z, mapM to_basic_gates gs = Ok l /\ unitc z /\ (forall g, In g (concat l) -> basic g /\ gate_in n g) /\ forall s, cden (concat l) s = fun x => z * cden gs s x).
  { induction gs as [|g gs IH].
    - exists [], C1. split; auto. split; [apply unit_1|]. split; [intros g []|]. intros s. apply state_ext. intros x. simpl. ring.
    - destruct IH as [l [z [E [U [B D]]]]]; [intros g0 Hg0; apply H; right; auto|]. destruct (H g (or_introl eq_refl)) as [G Q].
      destruct (basic_ok g G) as [b [z' [E' [U' [D' F']]]]]. exists (b :: l), (z * z'). cbn [mapM]. rewrite E', E. cbn [bind]. split; auto. split; [apply unit_mult; auto|]. split.
      + cbn [concat]. intros g0 Hg0. apply in_app_or in Hg0. destruct Hg0 as [Hg0|Hg0]; auto. rewrite Forall_forall in F'. destruct (F' g0 Hg0) as [F1 [F2 F3]]. split; auto. split; auto.
      + intros s. cbn [concat]. rewrite cden_app, D', D. rewrite cden_scale, cden_cons. apply state_ext. intros x. ring. }
  destruct X as [l [z [E [U [B D]]]]]. rewrite E. cbn [bind]. exists (mkCirc n (concat l)), z. split; auto. split; auto. split; auto. split; auto. intros s x. cbn [cgates]. rewrite D. reflexivity.
Qed.
