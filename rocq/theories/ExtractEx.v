(** Extraction of concrete diagrams with one fixed schedule *)
From Coq Require Import Reals ZArith QArith Qcanon List Bool Arith Lia Permutation FunctionalExtensionality.
From Verif Require Import LinModel LinProofs CNum Base ScalarModel ScalarProofs GraphModel GraphSem SumLemmas GraphProofs GraphOps RulesModel RuleLemmas
  SpiderProofs IsoProofs IdProofs LcompProofs PivotProofs PivotMatch GrowProofs StoreProofs SimpModel ColorProofs SimpProofs PairProofs RuleShape InvProofs TermProofs BfixProofs RoundProofs TotalProofs GrowTotal
  IsoExact RunEx FullTotal ZXFacts RedFacts GateModel CircSpec GateProofs GateDecomp GateAdj GateMask AmpProofs CircGraphModel CircGraphProofs CircGraphFacts VerifyProofs GraphAlgModel GraphAlgProofs GraphAlgFacts
  ComposeProofs ApplyProofs ExtractModel ExtractSem ExtractMap ExtractClean ExtractCz ExtractFront ExtractNbrs ExtractCnot ExtractTake ExtractPivot ExtractRound ExtractFinish ExtractKeys ExtractFacts.
Import ListNotations.
Close Scope Qc_scope. Close Scope Q_scope. Close Scope R_scope. Open Scope nat_scope.

(** *** A run: three qubits, Clifford+T, with gadgets after full_reduce *)
Definition ex_pick (ns : list nat) (m : mat) : list nat * list (nat * nat) :=
  (ns, match gauss true 3 [] m with Ok o => filter (fun ct => negb (Nat.eqb (fst ct) (snd ct))) (map (fun ab => (snd ab, fst ab)) (go_ops o)) | Err _ => [] end).
Definition ex_ch : choice := mkCh id_so id_so ex_pick.
Lemma ex_ch_ok : forall g, choice_ok g ex_ch.
Proof.
  intros g. split; [exact id_so_ok|]. split; [exact id_so_ok|]. intros ns m. split; [apply Permutation_refl|]. intros c t. cbn [ch_pick ex_ch ex_pick snd].
  destruct (gauss true 3 [] m); [|intros []]. intros H. apply filter_In in H. destruct H as [_ H]. apply negb_true_iff, Nat.eqb_neq in H. exact H.
Qed.
Definition ropt {A} (r : res A) : option A := match r with Ok a => Some a | Err _ => None end.
Definition exec_extract (opt up : bool) (fuel : nat) (g : graph) : option (circuit * graph) :=
  obind (ropt (let* s := extract_init g in Ok (s, g))) (fun s g =>
  obind (exec_loop (fun s g => ropt (round false opt s ex_ch g)) fuel s g) (fun s g =>
  obind (exec_id fuel g) (fun _ g => ropt (finish up s g)))).
Lemma exec_extract_run : forall opt up fuel g c g', exec_extract opt up fuel g = Some (c, g') -> run (extract_circuit false opt up) g (Ok (c, g')).
Proof.
  intros opt up fuel. unfold exec_extract, extract_circuit.
  assert (RO : forall A (r : res A) a, ropt r = Some a -> r = Ok a) by (intros A r b H; destruct r; simpl in H; congruence).
  apply (obind_run _ _ _ _ (fun g => ropt (let* s := extract_init g in Ok (s, g)))). { intros g a g' H. apply RO in H. symmetry. exact H. }
  intros s. apply obind_run; [apply exec_loop_run; intros a g x g' H; apply RO in H; exists ex_ch; split; [apply ex_ch_ok|auto]|].
  intros s2. apply obind_run; [apply exec_id_run|]. intros _ g c g' H. apply RO in H. symmetry. exact H.
Qed.
Definition hubs_okb (g : graph) : bool := forallb (fun v => match neighbors g v with
  | [n] => negb (vtype_eqb (vty g v) ZSP) || (vtype_eqb (vty g n) ZSP && RulesModel.is_pauli (phase g n) && forallb (fun u => vtype_eqb (vty g u) ZSP) (neighbors g n))
  | _ => true end) (vertices g).
Definition hubs_sepb (g : graph) : bool :=
  let hs := flat_map (fun v => match neighbors g v with [n] => if vtype_eqb (vty g v) ZSP then [n] else [] | _ => [] end) (vertices g) in
  forallb (fun n => forallb (fun n' => match edge_type g n n' with None => true | _ => false end) hs) hs.
Definition exq : circuit := mkCirc 3 [GTof 0 1 2; GHAD 1; GCNOT 1 0; GZ KZPhase 0 (frac 1 4); GTof 2 1 0].
Ltac circ_tac := intros g H; repeat (destruct H as [<-|H]; [split; [split; [repeat constructor; simpl; intuition congruence|split; [discriminate|first [exact I | reflexivity]]]|simpl; intros q Hq; repeat (destruct Hq as [<-|Hq]; [lia|]); contradiction]|]); destruct H.
Lemma hubs_okb_ok : forall g, (forall v, vty g v = ZSP -> neighbors g v <> [] -> In v (vertices g)) -> hubs_okb g = true -> hubs_ok g.
Proof.
  intros g V H v n T N. unfold hubs_okb in H. rewrite forallb_forall in H. assert (Iv : In v (vertices g)) by (apply V; auto; rewrite N; discriminate).
  specialize (H v Iv). cbv beta in H. rewrite N, T in H. cbn [vtype_eqb negb orb] in H. apply andb_true_iff in H. destruct H as [H H3]. apply andb_true_iff in H. destruct H as [H1 H2].
  apply vtype_eqb_eq in H1. split; auto. split; auto. intros u Hu. apply GraphProofs.neighbors_spec in Hu. rewrite forallb_forall in H3. apply vtype_eqb_eq. auto.
Qed.
Lemma hubs_sepb_ok : forall g, (forall v, vty g v = ZSP -> neighbors g v <> [] -> In v (vertices g)) -> hubs_sepb g = true -> hubs_sep g.
Proof.
  intros g V H v n v' n' T N T' N'. unfold hubs_sepb in H. rewrite forallb_forall in H.
  assert (X : forall v n, vty g v = ZSP -> neighbors g v = [n] -> In n (flat_map (fun v => match neighbors g v with [n] => if vtype_eqb (vty g v) ZSP then [n] else [] | _ => [] end) (vertices g))).
  { clear - V. intros v n T N. apply in_flat_map. exists v. split; [apply V; auto; rewrite N; discriminate|]. rewrite N, T. simpl. auto. }
  assert (Y := H n (X v n T N)). rewrite forallb_forall in Y. specialize (Y n' (X v' n' T' N')). destruct (edge_type g n n'); [discriminate|auto].
Qed.
Lemma nbr_in : forall g v, neighbors g v <> [] -> In v (vertices g).
Proof.
  intros g v H. destruct (neighbors g v) as [|a l] eqn:N; [congruence|]. apply (SpiderProofs.edge_type_in_l g v a). apply GraphProofs.neighbors_spec. rewrite N. simpl. auto.
Qed.
(** The premise on the hubs is needed: on an identity wire with a spider of phase pi/2
    hanging on it, which carries a spider of phase 0 (so the two amount to a scalar),
    extract_circuit returns a NOT gate. *)
Definition ex_hub : graph := mkgraph [(BOUNDARY, 0%Qc); (BOUNDARY, 0%Qc); (ZSP, 0%Qc); (ZSP, frac 1 2); (ZSP, 0%Qc)]
  [(0,2,SIMPLE); (1,2,SIMPLE); (2,3,HADAMARD); (3,4,HADAMARD)] [0] [1].
Lemma ex_hub_sem : forall b, sem ex_hub b = dlt (b 0) (b 1).
Proof.
  intros b. transitivity (sq2p (-1) * sq2p (-1) * (C1 + C1) * dlt (b 0) (b 1))%C.
  2: { rewrite sq2p_m1_sq. ring. }
  unfold sem. replace (internal ex_hub) with [2;3;4] by reflexivity. unfold_sem.
  change {| this := 0; canon := Qred_involutive 0 |} with 0%Qc. rewrite ?cexp_qmod2, ?cexp_0.
  unfold dlt, to_number. simpl. rewrite ?cexp_0, ?sq2p_0. destruct (b 0), (b 1); simpl; ring.
Qed.
Theorem phase_on_hub_refuted : exists g l c g', gok g /\ hubs_sep g /\ denotes g 1 l /\ run (extract_circuit false true false) g (Ok (c, g')) /\
  ~ exists k, k <> C0 /\ forall s x, (cden (cgates c) s x = k * cden l s x)%C.
Proof.
  destruct (exec_extract true false 20 ex_hub) as [[c g']|] eqn:E; [|vm_compute in E; discriminate].
  exists ex_hub, [], c, g'. assert (Z : zinv ex_hub) by (apply zinvb_ok; vm_compute; reflexivity).
  assert (IO : io_ok ex_hub) by (unfold io_ok; vm_compute; repeat constructor; simpl; intuition discriminate).
  split; [constructor; auto; apply glikeb_ok; [apply Z| |]; vm_compute; reflexivity|].
  split; [apply hubs_sepb_ok; [intros; apply nbr_in; auto|vm_compute; reflexivity]|].
  split.
  - split; auto. split; auto. split; [intros k []|]. exists C1. split; [exact C1_neq_C0|]. intros i y. unfold val. rewrite ex_hub_sem.
    change (cden [] (basis 1 i) y) with (basis 1 i y). unfold basis. cbn. ring.
  - split; [apply (exec_extract_run _ _ 20); exact E|]. intros [k [K H]].
    assert (X : cgates c = [GHAD 0; GZ KZPhase 0 (frac 1 2); GHAD 0; GHAD 0; GZ KZPhase 0 (frac 1 2); GHAD 0]) by (vm_compute in E; injection E as <- _; reflexivity).
    rewrite X in H. specialize (H (basis 1 (fun _ => false)) (fun _ => false)). apply K.
    transitivity (k * cden [] (basis 1 (fun _ => false)) (fun _ => false))%C; [unfold cden, basis, dlt; simpl; ring|]. rewrite <- H.
    unfold cden, basis. cbn. unfold dlt, op1. cbn. unfold mH, mP. cbn. rewrite ?cexp_half, ?cexp_0. ring [Ci2].
Qed.
