(** Circuit extraction for diagrams that denote a circuit, and after the simplifiers *)
From Coq Require Import Reals ZArith QArith Qcanon List Bool Arith Lia Permutation FunctionalExtensionality.
From Verif Require Import LinModel LinProofs CNum Base ScalarModel ScalarProofs GraphModel GraphSem SumLemmas GraphProofs GraphOps RulesModel RuleLemmas
  SpiderProofs IsoProofs IdProofs LcompProofs PivotProofs PivotMatch GrowProofs StoreProofs SimpModel ColorProofs SimpProofs PairProofs RuleShape InvProofs TermProofs BfixProofs RoundProofs TotalProofs GrowTotal
  FullTotal ZXFacts RedFacts GateModel CircSpec GateProofs GateDecomp GateAdj GateMask AmpProofs CircGraphModel CircGraphProofs CircGraphFacts VerifyProofs GraphAlgModel GraphAlgProofs GraphAlgFacts
  ComposeProofs ApplyProofs ExtractModel ExtractSem ExtractMap ExtractClean ExtractCz ExtractFront ExtractNbrs ExtractCnot ExtractTake ExtractPivot ExtractRound ExtractFinish ExtractKeys.
Import ListNotations.
Open Scope C_scope.

(** ** Circuits can be undone *)
Lemma gden_minus : forall l s s' x, cden l (fun y => s y + - C1 * s' y) x = cden l s x + - C1 * cden l s' x.
Proof. intros. rewrite (cden_plus l s (fun y => - C1 * s' y)), (cden_scale l (- C1) s'). reflexivity. Qed.
Lemma basic_right : forall n g, gate_in n g -> basic g -> exists l, (forall k, In k l -> gate_in n k) /\ forall s, gden g (cden l s) = s.
Proof.
  intros n g G B.
  assert (GD : adj_good g -> exists l, (forall k, In k l -> gate_in n k) /\ forall s, gden g (cden l s) = s).
  { intros A. exists [to_adjoint g]. assert (GA := adj_gate_in n g G). split; [intros k [<-|[]]; auto|]. intros s. apply functional_extensionality. intros x.
    assert (H : forall x, (fun y => gden g (cden [to_adjoint g] s) y + - C1 * s y) x = C0).
    { apply (cden_inj n [to_adjoint g]); [intros k [<-|[]]; auto|]. intros y. rewrite gden_minus. unfold cden. simpl. rewrite (adj_inv g (gden (to_adjoint g) s) (proj1 G) A). ring. }
    specialize (H x). cbv beta in H. transitivity (gden g (cden [to_adjoint g] s) x + - C1 * s x + s x); [ring|]. rewrite H. ring. }
  destruct g; try contradiction; try (apply GD; exact I).
  destruct G as [O Q]. assert (O' := O). destruct O' as [ND [_ ->]].
  exists [GFSim control target (frac 1 2) 0%Qc; GFSim control target (frac 1 2) 0%Qc; GFSim control target (frac 1 2) (- phi)%Qc]. split.
  - intros k [<-|[<-|[<-|[]]]]; (split; [split; [exact ND|split; [discriminate|reflexivity]]|exact Q]).
  - intros s. apply functional_extensionality. intros x. unfold cden. cbn [fold_left].
    assert (D : control <> target) by (apply NoDup_cons_iff in ND; intros ->; apply ND; simpl; auto).
    set (c := control) in *. set (t := target) in *.
    assert (S1 : forall x, swapq x c t c = x t) by (intros; unfold swapq; rewrite upd_other by auto; apply upd_same).
    assert (S2 : forall x, swapq x c t t = x c) by (intros; unfold swapq; apply upd_same).
    assert (S3 : forall x, swapq (swapq x c t) c t = x).
    { intros y. unfold swapq at 1. rewrite S1, S2. unfold swapq. apply functional_extensionality. intros q. unfold upd.
      destruct (Nat.eqb_spec q t), (Nat.eqb_spec q c); subst; auto. }
    rewrite !fsim_val. destruct (x c) eqn:Xc, (x t) eqn:Xt; cbn [Bool.eqb];
      repeat (progress (rewrite ?S3, ?S1, ?S2, ?Xc, ?Xt; cbn [Bool.eqb])).
    + rewrite Cmult_assoc, <- cexp_add. replace (- phi + - - phi)%Qc with 0%Qc by ring. replace (- 0)%Qc with 0%Qc by ring. rewrite cexp_0. ring.
    + transitivity ((Ci * Ci) * (Ci * Ci) * s x); [ring|]. rewrite Ci2. ring.
    + transitivity ((Ci * Ci) * (Ci * Ci) * s x); [ring|]. rewrite Ci2. ring.
    + ring.
Qed.
Lemma basics_right : forall n l, (forall g, In g l -> gate_in n g /\ basic g) -> exists l', (forall k, In k l' -> gate_in n k) /\ forall s, cden l (cden l' s) = s.
Proof.
  intros n l. induction l as [|g l IH]; intros H; [exists []; split; [intros k []|auto]|].
  destruct (H g (or_introl eq_refl)) as [G B]. destruct (basic_right n g G B) as [l1 [A1 A2]]. destruct (IH (fun k Hk => H k (or_intror Hk))) as [l2 [B1 B2]].
  exists (l2 ++ l1). split; [intros k Hk; apply in_app_iff in Hk; destruct Hk; auto|]. intros s. rewrite cden_cons, cden_app, A2. auto.
Qed.
Lemma cden_right : forall n l, (forall g, In g l -> gate_in n g) -> exists l' k, k <> C0 /\ (forall g, In g l' -> gate_in n g) /\ forall s x, cden l (cden l' s) x = k * s x.
Proof.
  intros n l G. destruct (c_basic_ok (mkCirc n l) G) as [c' [z [_ [N [B [U D]]]]]]. cbn [cgates cqubits] in *.
  destruct (basics_right n (cgates c')) as [l' [A1 A2]]. { intros g Hg. destruct (B g Hg) as [B1 B2]. rewrite N in B2. auto. }
  exists l', (/ z). assert (Z := unitc_neq0 z U). split; [apply Cinv_neq0; auto|]. split; auto. intros s x.
  assert (X := D (cden l' s) x). rewrite A2 in X. rewrite X, Cmult_assoc, Cinv_l by auto. ring.
Qed.

(** ** Diagrams that denote a circuit *)
Definition denotes (g : graph) (n : nat) (l : list gate) : Prop := nin g = n /\ nout g = n /\ (forall k, In k l -> gate_in n k) /\
  exists z, z <> C0 /\ forall i y, val g i y = z * cden l (basis n i) y.
Lemma denotes_inv : forall g n l, denotes g n l -> inv_map g.
Proof.
  intros g n l [Ni [No [G [z [Z H]]]]]. constructor.
  - intros s Ls. rewrite No in Ls. destruct (cden_right n l G) as [l' [k [K [G' R]]]]. set (s' := cden l' s).
    assert (Ls' : local n s') by (apply cden_local; auto).
    exists (fun i => / k * / z * s' i). intros y. rewrite Ni.
    transitivity (/ k * cden l s' y). { unfold s'. rewrite R, Cmult_assoc, Cinv_l by auto. ring. }
    rewrite (cden_matrix n l s' y G), <- sumv_scal.
    transitivity (sumv (seq 0 n) (fun i => / k * (s' i * cden l (basis n i) y)) zerob).
    + apply (sumv_dep (seq 0 n) _ []); [|intros v []]. intros x' y' E. assert (E' : forall q, (q < n)%nat -> x' q = y' q) by (intros q Q; apply E; left; apply in_seq; lia).
      rewrite (basis_ext n x' y') by auto. rewrite (Ls' x' y'); auto.
    + apply sumv_ext. intros i. rewrite H. transitivity (/ k * (/ z * z) * (s' i * cden l (basis n i) y)); [|ring]. rewrite Cinv_l by auto. ring.
  - intros a A i Hi. rewrite Ni in *. set (s := fun y => sumv (seq 0 n) (fun i => a i * basis n i y) zerob).
    assert (Z0 : forall y, s y = C0).
    { apply (cden_inj n l s G). intros x. unfold s. rewrite cden_sumv. transitivity (/ z * sumv (seq 0 n) (fun i => a i * val g i x) zerob).
      - rewrite <- sumv_scal. apply sumv_ext. intros j. rewrite H. transitivity (/ z * z * (a j * cden l (basis n j) x)); [rewrite Cinv_l by auto; ring|ring].
      - rewrite A. ring. }
    specialize (Z0 i). unfold s, basis in Z0. rewrite sumv_point in Z0 by apply seq_NoDup. rewrite <- Z0. f_equal. apply functional_extensionality. intros v.
    destruct (in_dec Nat.eq_dec v (seq 0 n)) as [Y|Y]; auto. unfold zerob. apply Hi. rewrite in_seq in Y. lia.
Qed.
Theorem extract_denotes : forall opt g n l c g', gok g -> hubs_ok g -> hubs_sep g -> denotes g n l -> run (extract_circuit false opt false) g (Ok (c, g')) ->
  cqubits c = n /\ circ_ok c /\ exists k, k <> C0 /\ forall s x, cden (cgates c) s x = k * cden l s x.
Proof.
  intros opt g n l c g' G HB HS D H. assert (IM := denotes_inv g n l D). destruct D as [Ni [No [GL [z [Z HV]]]]].
  destruct (extract_code_ok opt false g c g' G IM HB HS H) as [_ [Q [F [z' [sg [Z' [_ [SG HC]]]]]]]]. rewrite No in *. split; auto. rewrite Forall_forall in F.
  split; [intros k Hk; rewrite Q; auto|]. specialize (SG eq_refl).
  exists (/ z' * z). split; [apply Cmult_neq0; auto; apply Cinv_neq0; auto|]. intros s x.
  rewrite (cden_matrix n (cgates c) s x F), (cden_matrix n l s x GL), <- sumv_scal. apply sumv_ext. intros i.
  assert (E := HC i x). rewrite HV in E. replace (fun q => i (sg q)) with i in E by (apply functional_extensionality; intros q; rewrite SG; auto).
  transitivity (s i * (/ z' * (z' * cden (cgates c) (basis n i) x))).
  - rewrite (Cmult_assoc (/ z')), Cinv_l by auto. ring.
  - rewrite <- E. ring.
Qed.
(** with [up_to_perm] the wires may be permuted *)
Theorem extract_denotes_perm : forall opt up g n l c g', gok g -> hubs_ok g -> hubs_sep g -> denotes g n l -> run (extract_circuit false opt up) g (Ok (c, g')) ->
  cqubits c = n /\ circ_ok c /\ exists k sg, k <> C0 /\ qperm n sg /\ (up = false -> forall q, sg q = q) /\ forall i y, cden (cgates c) (basis n (fun q => i (sg q))) y = k * cden l (basis n i) y.
Proof.
  intros opt up g n l c g' G HB HS D H. assert (IM := denotes_inv g n l D). destruct D as [Ni [No [GL [z [Z HV]]]]].
  destruct (extract_code_ok opt up g c g' G IM HB HS H) as [_ [Q [F [z' [sg [Z' [QP [SG HC]]]]]]]]. rewrite No in *. split; auto. rewrite Forall_forall in F.
  split; [intros k Hk; rewrite Q; auto|].
  exists (/ z' * z), sg. split; [apply Cmult_neq0; auto; apply Cinv_neq0; auto|]. split; auto. split; auto. intros i y.
  assert (E := HC i y). rewrite HV in E. rewrite <- Cmult_assoc, E, Cmult_assoc, Cinv_l by auto. ring.
Qed.

(** ** Circuit to diagram, simplification, extraction *)
Lemma to_graph_denotes : forall so compress c, is_perm_oracle so -> so (seq 0 (cqubits c)) = seq 0 (cqubits c) -> circ_ok c ->
  exists g, to_graph so false compress c = Ok g /\ zinv g /\ io_ok g /\ denotes g (cqubits c) (cgates c).
Proof.
  intros so cr c SO SE OK. destruct (to_graph_ok so cr c SO OK) as [g [z [E [U [Z [L1 [L2 [ND H]]]]]]]]. exists g. split; auto. split; auto. split; auto.
  split; auto. split; auto. split; auto. exists z. split; [apply unitc_neq0; auto|]. intros i y. unfold val.
  rewrite (H _ y).
  - rewrite (basis_ext (cqubits c) _ i); auto. intros q Q. apply bits_in; auto. rewrite L1; auto.
  - intros j J. rewrite SE, seq_nth by auto. rewrite bits_out by (auto; rewrite L2; auto). reflexivity.
Qed.
Lemma denotes_upto : forall g g' n l, denotes g n l -> same_upto g g' -> denotes g' n l.
Proof.
  intros g g' n l [Ni [No [G [z [Z H]]]]] [I [O [k [K HK]]]]. unfold denotes, nin, nout in *. rewrite I, O. split; auto. split; auto. split; auto.
  exists (k * z). split; [apply Cmult_neq0; auto|]. intros i y. unfold val in *. rewrite I, O, HK, H. ring.
Qed.
Theorem optimise_full : forall so compress opt c g0 u g d g',
  is_perm_oracle so -> so (seq 0 (cqubits c)) = seq 0 (cqubits c) -> circ_ok c ->
  to_graph so false compress c = Ok g0 -> run (full_reduce AllC) g0 (Ok (u, g)) -> hubs_ok g -> hubs_sep g -> run (extract_circuit false opt false) g (Ok (d, g')) ->
  cqubits d = cqubits c /\ circ_ok d /\ exists k, k <> C0 /\ forall s x, cden (cgates d) s x = k * cden (cgates c) s x.
Proof.
  intros so cr opt c g0 u g d g' SO SE OK E R HB HS H. destruct (to_graph_denotes so cr c SO SE OK) as [g1 [E1 [Z [IO D]]]]. rewrite E in E1. injection E1 as <-.
  destruct (full_reduce_correct g0 Z _ R) as [u' [g2 [Y [[Z' GL] MK]]]]. injection Y as <- <-. destruct MK as [MK _]. apply (extract_denotes opt g _ _ d g'); auto.
  - constructor; auto. unfold io_ok in *. destruct MK as [-> [-> _]]. auto.
  - eapply denotes_upto; eauto.
Qed.
Theorem optimise_clifford : forall so compress opt c g0 u g d g',
  is_perm_oracle so -> so (seq 0 (cqubits c)) = seq 0 (cqubits c) -> circ_ok c ->
  to_graph so false compress c = Ok g0 -> run (clifford_simp AllC) g0 (Ok (u, g)) -> hubs_ok g -> hubs_sep g -> run (extract_circuit false opt false) g (Ok (d, g')) ->
  cqubits d = cqubits c /\ circ_ok d /\ exists k, k <> C0 /\ forall s x, cden (cgates d) s x = k * cden (cgates c) s x.
Proof.
  intros so cr opt c g0 u g d g' SO SE OK E R HB HS H. destruct (to_graph_denotes so cr c SO SE OK) as [g1 [E1 [Z [IO D]]]]. rewrite E in E1. injection E1 as <-.
  destruct (clifford_correct g0 Z _ R) as [u' [g2 [Y [[Z' [GL _]] MK]]]]. injection Y as <- <-. destruct MK as [MK _]. apply (extract_denotes opt g _ _ d g'); auto.
  - constructor; auto. unfold io_ok in *. destruct MK as [-> [-> _]]. auto.
  - eapply denotes_upto; eauto.
Qed.
