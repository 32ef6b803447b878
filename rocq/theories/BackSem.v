(** graph_to_circuit: what one more vertex does to the amplitudes of a part of a diagram. *)
From Coq Require Import Reals ZArith QArith Qcanon List Bool Arith Lia Permutation FunctionalExtensionality.
From Verif Require Import CNum Base ScalarModel ScalarProofs GraphModel GraphSem SumLemmas GraphProofs GraphOps RulesModel RuleLemmas
  GateModel CircSpec GateProofs GateDecomp GateAdj GateMask AmpProofs CircGraphProofs SuppProofs.
Import ListNotations.
Open Scope C_scope.

(** ** Hadamards at the X spiders *)
Lemma hads_node : forall n F F' q c et p s, (q < n)%nat -> F' q = c -> (forall i, i <> q -> F' i = F i) ->
  op1 (mP p) q (op1 (wm (tog (xorb (F q) c) et)) q (hads F (seq 0 n) s)) = hads F' (seq 0 n) (nodeop c et p q s).
Proof.
  intros n F F' q c et p s Hq Fq FF. assert (Iq : In q (seq 0 n)) by (apply in_seq; lia).
  rewrite (hads_off F _ q), (hads_off F' _ q) by (auto; apply seq_NoDup).
  rewrite (hads_ext (off F' q) (off F q)) by (intros i Hi; unfold off; destruct (Nat.eqb_spec i q); auto).
  rewrite Fq, wm_op.
  rewrite (hads_comm (hif (isH (tog (xorb (F q) c) et)) q)).
  2:{ intros i t Hi Oi. assert (i <> q) by (intros ->; unfold off in Oi; rewrite Nat.eqb_refl in Oi; discriminate).
      unfold hif. destruct (isH _); auto. apply op1_comm; auto. }
  rewrite (hads_comm (op1 (mP p) q)).
  2:{ intros i t Hi Oi. assert (i <> q) by (intros ->; unfold off in Oi; rewrite Nat.eqb_refl in Oi; discriminate). apply op1_comm; auto. }
  f_equal. unfold nodeop. rewrite !hif_hif, isH_tog, xorb_nilpotent. cbn [hif]. f_equal. f_equal. destruct (F q), c, (isH et); reflexivity.
Qed.
Lemma hads_cz : forall n F a c s, (a < n)%nat -> (c < n)%nat -> a <> c ->
  czop a c (hads F (seq 0 n) s) = hads F (seq 0 n) (hif (F c) c (hif (F a) a (czop a c (hif (F c) c (hif (F a) a s))))).
Proof.
  intros n F a c s Ha Hc D. assert (Ia : In a (seq 0 n)) by (apply in_seq; lia). assert (Ic : In c (seq 0 n)) by (apply in_seq; lia).
  assert (Fa : off F c a = F a) by (unfold off; rewrite (proj2 (Nat.eqb_neq a c)); auto).
  assert (SP : forall s, hads F (seq 0 n) s = hads (off (off F c) a) (seq 0 n) (hif (F a) a (hif (F c) c s))).
  { intros t. rewrite (hads_off F _ c) by (auto; apply seq_NoDup). rewrite (hads_off (off F c) _ a) by (auto; apply seq_NoDup). rewrite Fa. reflexivity. }
  assert (CM : forall b d s, hif b c (hif d a s) = hif d a (hif b c s)) by (intros [] [] t; auto; cbn [hif]; apply op1_comm; auto).
  rewrite !SP. rewrite (hads_comm (czop a c)).
  - f_equal. rewrite !CM. rewrite !hif_hif, !xorb_nilpotent. cbn [hif]. reflexivity.
  - intros q t _ Oq. apply czop_comm.
    + intros ->. unfold off in Oq. rewrite Nat.eqb_refl in Oq. discriminate.
    + intros ->. unfold off in Oq. rewrite Nat.eqb_refl in Oq. destruct (Nat.eqb c a); discriminate.
Qed.

(** ** Adding a vertex *)
(** amplitude of the vertices [I ++ D], where those of D are summed over and [e q] is the end of qubit q *)
Definition part_amp (n : nat) (g : graph) (I D : list nat) (e : nat -> nat) (b z : assignment) : C :=
  sumv D (fun x => integL (I ++ D) g x * tails (seq 0 n) e x z) b.
Definition eset (e : nat -> nat) (q v : nat) : nat -> nat := fun i => if Nat.eqb i q then v else e i.
Lemma integL_snoc : forall g L v x, integL (L ++ [v]) g x = integL L g x * pw g v (x v) * cprod (fun u => ew g u v (x u) (x v)) L.
Proof.
  intros. unfold integL. rewrite cprod_app, pprod_app. cbn [cprod pprod].
  assert (E : cprod (fun u => ew g u v (x u) (x v) * C1) L = cprod (fun u => ew g u v (x u) (x v)) L) by (apply cprod_ext; intros; ring). rewrite E. ring.
Qed.
Lemma seq_pick : forall n q, (q < n)%nat -> exists L0, Permutation (seq 0 n) (q :: L0) /\ ~ In q L0 /\ forall i, In i L0 -> (i < n)%nat.
Proof.
  intros n q Hq. exists (filter (fun i => negb (Nat.eqb i q)) (seq 0 n)). split; [|split].
  - apply nodup_same_perm; [apply seq_NoDup| |].
    + constructor; [|apply NoDup_filter, seq_NoDup]. rewrite filter_In, Nat.eqb_refl. simpl. intuition congruence.
    + intros a. simpl. rewrite filter_In, in_seq. destruct (Nat.eqb_spec a q); subst; simpl; intuition; try lia.
  - rewrite filter_In, Nat.eqb_refl; simpl; intuition congruence.
  - intros i; rewrite filter_In, in_seq; lia.
Qed.
Lemma part_amp_step : forall n g I D e q v et side Q b, NoDup (I ++ D ++ [v]) -> (q < n)%nat ->
  (forall i, (i < n)%nat -> In (e i) (I ++ D)) ->
  edge_type g (e q) v = Some et -> NoDup (e q :: side) -> (forall u, In u side -> (Q u < n)%nat /\ Q u <> q /\ e (Q u) = u) ->
  (forall u, In u (I ++ D) -> edge_type g u v <> None -> u = e q \/ In u side) ->
  part_amp n g I (D ++ [v]) (eset e q v) b = fun z =>
    cprod (fun u => ew g u v (z (Q u)) (z q)) side * op1 (fun i j => if Bool.eqb i j then pw g v i else C0) q
      (op1 (wm (tog (xorb (isX g (e q)) (isX g v)) et)) q (part_amp n g I D e b)) z.
Proof.
  intros n g I D e q v et side Q b N Hq HE ET NS HS HN. apply functional_extensionality. intros z.
  destruct (seq_pick n q Hq) as [L0 [HP [Q0 Ln]]].
  assert (Nv : ~ In v (I ++ D)). { rewrite app_assoc in N. apply NoDup_remove_2 in N. rewrite app_nil_r in N. auto. }
  assert (ND : NoDup (I ++ D)). { rewrite app_assoc in N. apply NoDup_remove_1 in N. rewrite app_nil_r in N. auto. }
  set (T0 := fun x : assignment => cprod (fun i => dlt (x (e i)) (z i)) L0).
  assert (TL : forall x, tails (seq 0 n) (eset e q v) x z = dlt (x v) (z q) * T0 x).
  { intros x. unfold tails. rewrite (cprod_perm _ _ _ _ HP). cbn [cprod]. unfold eset at 1. rewrite Nat.eqb_refl. f_equal.
    apply cprod_ext. intros i Hi. unfold eset. destruct (Nat.eqb_spec i q); auto. subst; contradiction. }
  assert (TR : forall x w, tails (seq 0 n) e x (upd z q w) = dlt (x (e q)) w * T0 x).
  { intros x w. unfold tails. rewrite (cprod_perm _ _ _ _ HP). cbn [cprod]. rewrite upd_same. f_equal.
    apply cprod_ext. intros i Hi. rewrite upd_other; auto. intros ->; contradiction. }
  set (W := wt (Some (tog (xorb (isX g (e q)) (isX g v)) et))).
  assert (EW : forall x, cprod (fun u => ew g u v (x u) (x v)) (I ++ D) = W (x (e q)) (x v) * cprod (fun u => ew g u v (x u) (x v)) side).
  { intros x. rewrite (cprod_on _ (e q :: side)); auto.
    - cbn [cprod]. f_equal. unfold ew. rewrite ET. reflexivity.
    - intros u [<-|Hu]; [apply HE; auto|]. destruct (HS u Hu) as [X [_ <-]]. apply HE; auto.
    - intros u Hu X. unfold ew. destruct (edge_type g u v) eqn:E; [|reflexivity]. exfalso. apply X. destruct (HN u Hu); [rewrite E; discriminate|left; auto|right; auto]. }
  set (S := cprod (fun u => ew g u v (z (Q u)) (z q)) side).
  assert (SD : forall x, cprod (fun u => ew g u v (x u) (z q)) side * T0 x = S * T0 x).
  { intros x. unfold S. assert (HS' : forall u, In u side -> In (Q u) L0 /\ e (Q u) = u).
    { intros u Hu. destruct (HS u Hu) as [A [B E]]. split; auto.
      assert (X : In (Q u) (q :: L0)) by (apply (Permutation_in _ HP); apply in_seq; lia). destruct X as [X|X]; auto. congruence. }
    clear -HS'. induction side as [|u side IH]; auto. cbn [cprod]. destruct (HS' u (or_introl eq_refl)) as [I1 I2].
    assert (R := tails_read L0 e x z (Q u) (fun a => ew g u v a (z q)) I1). rewrite I2 in R. unfold tails in R. fold (T0 x) in R.
    transitivity (cprod (fun u => ew g u v (x u) (z q)) side * (ew g u v (x u) (z q) * T0 x)); [ring|]. rewrite R.
    transitivity (ew g u v (z (Q u)) (z q) * (cprod (fun u => ew g u v (x u) (z q)) side * T0 x)); [ring|]. rewrite IH by (intros; apply HS'; right; auto). ring. }
  (* the left side *)
  transitivity (sumv D (fun x => integL (I ++ D) g x * pw g v (z q) * W (x (e q)) (z q) * S * T0 x) b).
  - unfold part_amp. rewrite sumv_app. apply sumv_ext. intros x. cbn [sumv].
    assert (X : forall w, integL (I ++ D ++ [v]) g (upd x v w) * tails (seq 0 n) (eset e q v) (upd x v w) z =
       dlt w (z q) * (integL (I ++ D) g x * pw g v w * (W (x (e q)) w * cprod (fun u => ew g u v (x u) w) side) * T0 x)).
    { intros w. rewrite app_assoc, integL_snoc, EW, TL, integL_indep, !upd_same by auto.
      assert (O : forall u, In u (I ++ D) -> upd x v w u = x u) by (intros u Hu; apply upd_other; intros ->; contradiction).
      rewrite (O (e q)) by (apply HE; auto).
      assert (Y1 : cprod (fun u => ew g u v (upd x v w u) w) side = cprod (fun u => ew g u v (x u) w) side).
      { apply cprod_ext. intros u Hu. rewrite O; auto. destruct (HS u Hu) as [A [_ <-]]. apply HE; auto. }
      assert (Y2 : T0 (upd x v w) = T0 x) by (unfold T0; apply cprod_ext; intros i Hi; rewrite O; auto; apply HE; auto).
      rewrite Y1, Y2. ring. }
    rewrite !X.
    transitivity (integL (I ++ D) g x * pw g v (z q) * W (x (e q)) (z q) * (cprod (fun u => ew g u v (x u) (z q)) side * T0 x)).
    + destruct (z q); unfold dlt; cbn [Bool.eqb]; ring.
    + rewrite SD. ring.
  - (* the right side *)
    transitivity (S * (pw g v (z q) * (W false (z q) * part_amp n g I D e b (upd z q false) + W true (z q) * part_amp n g I D e b (upd z q true)))).
    + unfold part_amp. rewrite <- !sumv_scal, <- sumv_plus, <- !sumv_scal. apply sumv_ext. intros x. rewrite !TR.
      destruct (x (e q)); unfold dlt; cbn [Bool.eqb]; ring.
    + unfold op1 at 1. unfold op1. rewrite !upd_same, !upd_shadow. unfold wm. fold W. destruct (z q); cbn [Bool.eqb]; ring.
Qed.

(** ** The gates *)
From Verif Require Import GflowModel CircGraphModel BackModel CircGraphProofs.
Open Scope C_scope.
Definition two_qubit (k : gate) : bool := Nat.eqb (length (gate_qubits k)) 2.
Definition two_count (l : list gate) : nat := length (filter two_qubit l).
Lemma two_count_app : forall a b, two_count (a ++ b) = (two_count a + two_count b)%nat.
Proof. intros. unfold two_count. rewrite filter_app, app_length. reflexivity. Qed.
Lemma qnat_crd : forall k, qnat (crd k) = Ok k.
Proof.
  intros k. unfold qnat, crd, Qcz. replace (this (Q2Qc (inject_Z (Z.of_nat k)))) with (Z.of_nat k # 1)%Q.
  - simpl. rewrite (proj2 (Z.leb_le 0 (Z.of_nat k))) by lia. rewrite Nat2Z.id. reflexivity.
  - simpl. unfold inject_Z, Qred. destruct (Z.ggcd (Z.of_nat k) 1) as [d [a b]] eqn:E. pose proof (Z.ggcd_gcd (Z.of_nat k) 1) as G. pose proof (Z.ggcd_correct_divisors (Z.of_nat k) 1) as G2.
    rewrite E in *. simpl in *. rewrite Z.gcd_1_r in G. subst d. destruct G2 as [G1 G2]. assert (a = Z.of_nat k) by lia. assert (b = 1)%Z by lia. subst. reflexivity.
Qed.
Lemma crd_inj : forall a b, crd a = crd b -> a = b.
Proof. intros a b H. assert (X := qnat_crd a). rewrite H, qnat_crd in X. congruence. Qed.
Lemma den_frac : forall p d, Qden (this p) = d -> p = frac (Qnum (this p)) d.
Proof. intros p d H. apply Qc_is_canon. unfold frac. etransitivity; [|symmetry; apply Qred_correct]. destruct (this p) as [a c]. simpl in H. subst. reflexivity. Qed.
Lemma mXP_0 : forall q s, op1 (mXP 0) q s = s.
Proof. intros. rewrite <- nodeop_X. apply nodeop_0. Qed.
Lemma cexp_two : cexp (Qcz 2) = C1.
Proof. exact (cexp_even 1). Qed.
Lemma spider_den : forall split t q p s, in02 p -> t = ZSP \/ t = XSP -> cden (spider_gates split t q p) s = op1 ((if vtype_eqb t XSP then mXP else mP) p) q s.
Proof.
  intros split t q p s HP HT. unfold spider_gates. destruct (qeqb p 0%Qc) eqn:E0; [apply qeqb_eq in E0; subst p|].
  { replace (qeqb 0%Qc 1%Qc) with false by reflexivity. destruct HT as [-> | ->]; cbn; [|rewrite mXP_0; auto].
    rewrite (op1_ext _ mI) by apply mP_0. rewrite op1_I. destruct split; reflexivity. }
  destruct split; cbn [negb andb].
  2:{ destruct HT as [-> | ->]; reflexivity. }
  destruct HT as [-> | ->]; cbn [vtype_eqb andb].
  - destruct (Pos.eqb_spec (Qden (this p)) 2) as [D|D].
    { assert (P := den_frac p 2 D). assert (Q : quarter p). { exists (2 * Qnum (this p))%Z. rewrite P at 1. apply Qc_is_canon. unfold frac. etransitivity; [apply Qred_correct|]. etransitivity; [|symmetry; apply Qred_correct]. unfold Qeq. cbn [Qnum Qden]. lia. }
      destruct (quarter_cases p HP Q) as [->|[->|[->|[->|[->|[->|[->| ->]]]]]]]; try discriminate D; cbn; apply mP_ext; auto.
      replace (frac 3 2) with (frac (-1) 2 + Qcz 2)%Qc by (apply Qc_is_canon; reflexivity). rewrite cexp_add, cexp_two, Cmult_1_r. reflexivity. }
    destruct (Pos.eqb_spec (Qden (this p)) 4) as [D4|D4].
    { assert (P := den_frac p 4 D4). assert (Q : quarter p) by (exists (Qnum (this p)); auto).
      destruct (quarter_cases p HP Q) as [->|[->|[->|[->|[->|[->|[->| ->]]]]]]]; try discriminate D4; cbn.
      - reflexivity.
      - rewrite op1_op1. apply op1_ext. intros i j. rewrite mP_mP. replace (frac (-1) 4 + 1)%Qc with (frac 3 4) by (apply Qc_is_canon; reflexivity). reflexivity.
      - rewrite op1_op1. apply op1_ext. intros i j. rewrite mP_mP. replace (frac 1 4 + 1)%Qc with (frac 5 4) by (apply Qc_is_canon; reflexivity). reflexivity.
      - apply mP_ext. replace (frac 7 4) with (frac (-1) 4 + Qcz 2)%Qc by (apply Qc_is_canon; reflexivity). rewrite cexp_add, cexp_two, Cmult_1_r. reflexivity. }
    destruct (qeqb p 1%Qc) eqn:E1; [apply qeqb_eq in E1; subst p|]; reflexivity.
  - destruct (qeqb p 1%Qc) eqn:E1; [apply qeqb_eq in E1; subst p|]; reflexivity.
Qed.
Lemma spider_qubits : forall split t q p k, In k (spider_gates split t q p) -> gate_ok k /\ gate_qubits k = [q].
Proof.
  assert (G : forall k q, gate_qubits k = [q] -> match k with GZ _ _ _ | GX _ _ _ | GHAD _ => True | _ => False end -> gate_ok k /\ gate_qubits k = [q]).
  { intros k q E H. split; auto. split; [rewrite E; repeat constructor; simpl; tauto|]. split; [rewrite E; discriminate|]. destruct k; auto; destruct H. }
  intros split t q p k H. unfold spider_gates in H. apply G.
  - repeat match type of H with context [if ?b then _ else _] => destruct b end; simpl in H; repeat (destruct H as [<-|H]; [reflexivity|]); try contradiction.
  - repeat match type of H with context [if ?b then _ else _] => destruct b end; simpl in H; repeat (destruct H as [<-|H]; [exact I|]); try contradiction.
Qed.
Lemma one_count : forall l, (forall k, In k l -> exists q, gate_qubits k = [q]) -> two_count l = 0%nat.
Proof. intros l H. unfold two_count. induction l as [|k l IH]; auto. simpl. destruct (H k (or_introl eq_refl)) as [q E]. unfold two_qubit at 1. rewrite E. simpl. apply IH. intros; apply H; right; auto. Qed.
Lemma nodeop_den : forall split t q p et s, in02 p -> t = ZSP \/ t = XSP ->
  nodeop (vtype_eqb t XSP) et p q s = cden ((if isH et then [GHAD q] else []) ++ spider_gates split t q p) s.
Proof.
  intros split t q p et s HP HT. rewrite cden_app, (spider_den split t q p _ HP HT).
  assert (E : cden (if isH et then [GHAD q] else []) s = hif (isH et) q s) by (destruct (isH et); reflexivity). rewrite E.
  destruct HT as [-> | ->]; cbn [vtype_eqb]; [unfold nodeop; destruct (isH et); reflexivity|].
  rewrite <- nodeop_X. unfold nodeop. cbn [xorb isH]. rewrite hif_hif. reflexivity.
Qed.
Lemma czop_sym : forall a c s, czop a c s = czop c a s.
Proof. intros. unfold czop. apply functional_extensionality. intros z. rewrite andb_comm. reflexivity. Qed.

Lemma side_ok : forall n g v q F e Q (s0 : state) (K : C), wfg g -> (q < n)%nat -> isX g v = F q -> vty g v = ZSP \/ vty g v = XSP ->
  (forall i, (i < n)%nat -> i <> q -> F i = isX g (e i)) ->
  forall side gs gs', (forall u, In u side -> (Q u < n)%nat /\ Q u <> q /\ e (Q u) = u /\ dget u (gqindex g) = Some (crd (Q u)) /\ (vty g u = ZSP \/ vty g u = XSP)) ->
  foldM (side_gate g v (vty g v) q) side gs = Ok gs' ->
  (exists t, gs' = gs ++ t /\ length t = length side /\ forall k, In k t -> gate_in n k /\ two_qubit k = true) /\
  forall z, cprod (fun u => ew g u v (z (Q u)) (z q)) side * (K * hads F (seq 0 n) (cden gs s0) z) = K * sq2p (- Z.of_nat (length side)) * hads F (seq 0 n) (cden gs' s0) z.
Proof.
  intros n g v q F e Q s0 K W Hq Fq TV FE. induction side as [|u side IH]; intros gs gs' HS H.
  - simpl in H. injection H as <-. split; [exists []; rewrite app_nil_r; split; auto; split; auto; intros k []|]. intros z. cbn [cprod length]. change (- Z.of_nat 0)%Z with 0%Z. rewrite sq2p_0. ring.
  - cbn [foldM] in H. apply bind_ok in H. destruct H as [g1 [H1 H]]. destruct (HS u (or_introl eq_refl)) as [Hu [Du [Eu [Qu Tu]]]].
    assert (STEP : exists k, g1 = gs ++ [k] /\ gate_in n k /\ two_qubit k = true /\ (forall a b, ew g u v a b = wt (Some HADAMARD) a b) /\
       forall s, hif (F q) q (hif (F (Q u)) (Q u) (czop (Q u) q (hif (F q) q (hif (F (Q u)) (Q u) s)))) = gden k s).
    { unfold side_gate in H1. assert (DT : dget u (gty g) = Some (vty g u)).
      { unfold vty in *. destruct (dget u (gty g)); auto. destruct Tu; discriminate. }
      rewrite DT, Qu in H1. cbn [of_opt bind] in H1. rewrite qnat_crd in H1. cbn [bind] in H1.
      assert (FU : F (Q u) = isX g u) by (rewrite FE, Eu; auto). rewrite (wf_sym g W v u) in H1.
      assert (GI : forall k c t, gate_qubits k = [c; t] -> (c < n)%nat -> (t < n)%nat -> c <> t -> match k with GCNOT _ _ | GCZ _ _ => True | _ => False end -> gate_in n k /\ two_qubit k = true).
      { intros k c t E A B D M. split; [|unfold two_qubit; rewrite E; reflexivity]. split.
        - split; [rewrite E; repeat constructor; simpl; intuition congruence|]. split; [rewrite E; discriminate|]. destruct k; auto; destruct M.
        - intros i Hi. rewrite E in Hi. destruct Hi as [<-|[<-|[]]]; auto. }
      unfold ew. rewrite FU, <- Fq. unfold isX in *. destruct TV as [TV|TV], Tu as [Tu|Tu]; rewrite TV, Tu in *; cbn [vtype_eqb] in *; destruct (edge_type g u v) as [[]|] eqn:E; try discriminate H1; injection H1 as <-.
      - exists (GCZ (Q u) q). split; auto. destruct (GI (GCZ (Q u) q) (Q u) q eq_refl Hu Hq Du I) as [G1 G2]. split; [exact G1|]. split; [exact G2|]. split; [intros [] []; reflexivity|]. intros s. reflexivity.
      - exists (GCNOT q (Q u)). split; auto. destruct (GI (GCNOT q (Q u)) q (Q u) eq_refl Hq Hu (fun X => Du (eq_sym X)) I) as [G1 G2]. split; [exact G1|]. split; [exact G2|]. split; [intros [] []; reflexivity|].
        intros s. cbn [hif]. rewrite czop_sym. apply (cz_cnot q (Q u) s). auto.
      - exists (GCNOT (Q u) q). split; auto. destruct (GI (GCNOT (Q u) q) (Q u) q eq_refl Hu Hq Du I) as [G1 G2]. split; [exact G1|]. split; [exact G2|]. split; [intros [] []; reflexivity|].
        intros s. apply (cz_cnot (Q u) q s). auto. }
    destruct STEP as [k [-> [GK [TK [EK SK]]]]].
    destruct (IH (gs ++ [k]) gs' (fun w Hw => HS w (or_intror Hw)) H) as [[t [-> [LT HT]]] ID]. split.
    + exists (k :: t). rewrite <- app_assoc. split; auto. split; [simpl; auto|]. intros k' [<-|Hk]; auto.
    + intros z. cbn [cprod length]. rewrite EK.
      assert (X : hads F (seq 0 n) (cden (gs ++ [k]) s0) = czop (Q u) q (hads F (seq 0 n) (cden gs s0))).
      { rewrite hads_cz by auto. rewrite SK, cden_app. reflexivity. }
      specialize (ID z). rewrite X in ID. unfold czop in ID. cbn [wt].
      transitivity (sq2p (-1) * (cprod (fun u0 => ew g u0 v (z (Q u0)) (z q)) side * (K * (sgn (z (Q u) && z q) * hads F (seq 0 n) (cden gs s0) z)))); [ring|].
      rewrite ID. replace (- Z.of_nat (S (length side)))%Z with (-1 + - Z.of_nat (length side))%Z by lia. rewrite sq2p_add. ring.
Qed.
