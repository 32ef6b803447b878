(** Property theorems: gates and circuits (C24, C25, C39, C44, C48). *)
From Coq Require Import Reals ZArith QArith Qcanon List Bool Arith Lia.
From Verif Require Import CNum Base ScalarModel GraphSem GateModel CircSpec GateProofs GateDecomp GateAdj GateMask DepthProofs.
Import ListNotations.
Close Scope Qc_scope. Close Scope Q_scope. Close Scope R_scope. Open Scope nat_scope.

(** a circuit with gates of many classes *)
Definition exc : circuit := mkCirc 4
  [GCRY 0 2 (frac 1 3); GU3 1 (frac 1 5) (frac 2 7) (frac (-3) 4); GParity (frac 1 4) [3; 0; 2]; GRXX 3 1 (frac 5 9); GTof 0 1 3; GCHAD 2 0; RZZ 1 2 (frac 7 8);
   Sg 1 true; GY KYPhase 2 (frac 3 8); GCSWAP 3 2 0; GHAD 1; GCNOT 3 0].
Ltac circ_tac := intros g H; repeat (destruct H as [<-|H]; [split; [split; [repeat constructor; simpl; intuition congruence|split; [discriminate|first [exact I | reflexivity]]]|simpl; intros q Hq; repeat (destruct Hq as [<-|Hq]; [lia|]); contradiction]|]); destruct H.
Lemma exc_ok : circ_ok exc. Proof. circ_tac. Qed.

Theorem C24_gate_to_basic : forall g, gate_ok g -> exists gs z, to_basic_gates g = Ok gs /\ unitc z /\
  (forall s, cden gs s = fun x => (z * gden g s x)%C) /\ Forall (fun b => basic b /\ gate_ok b /\ incl (gate_qubits b) (gate_qubits g)) gs.
Proof. exact basic_ok. Qed.
Print Assumptions C24_gate_to_basic.
Theorem C24_circuit_to_basic : forall c, circ_ok c -> exists c' z, c_basic c = Ok c' /\ cqubits c' = cqubits c /\ circ_basic c' /\ unitc z /\
  forall s x, (cden (cgates c') s x = z * cden (cgates c) s x)%C.
Proof. exact c_basic_ok. Qed.
Print Assumptions C24_circuit_to_basic.
Example C24_case : circ_ok exc /\ exists c', c_basic exc = Ok c' /\ length (cgates c') = 83.
Proof. split; [exact exc_ok|]. eexists. split; [vm_compute; reflexivity|]. vm_compute. reflexivity. Qed.

Theorem C25_circuit_adjoint : forall c, circ_ok c -> (forall g, In g (cgates c) -> adj_good g) ->
  forall s, cden (cgates c ++ cgates (c_adjoint c)) s = s.
Proof. intros c O A s. rewrite cden_app. apply circ_adj. intros g H. split; [apply O|apply A]; auto. Qed.
Print Assumptions C25_circuit_adjoint.
Example C25_case : let c := mkCirc 4 (firstn 1 (cgates exc) ++ skipn 2 (cgates exc)) in circ_ok c /\ (forall g, In g (cgates c) -> adj_good g) /\ length (cgates c) = 11.
Proof.
  split; [circ_tac|]. split; [|reflexivity]. intros g H. repeat (destruct H as [<-|H]; [exact I|]). destruct H.
Qed.
(** [to_adjoint] is wrong for U2, U3, CU3, CU, FSim and CSX *)
Theorem C25_adjoint_refuted : Forall (fun g => gate_ok g /\ ~ eq_phase (fun s => cden [g; to_adjoint g] s) (fun s => s)) bad_adjoint.
Proof.
  unfold bad_adjoint. repeat apply Forall_cons; try apply Forall_nil; (split; [split; [repeat constructor; simpl; intuition congruence|split; [discriminate|first [exact I | reflexivity]]]|]).
  - exact bad_u2.
  - exact bad_u3.
  - exact bad_cu3.
  - exact bad_cu.
  - exact bad_fsim.
  - exact bad_csx.
Qed.
Print Assumptions C25_adjoint_refuted.

Theorem C39_zphase_split : forall k t p s, cden (zsplit k t p) s = gden (GZ k t p) s.
Proof. exact zsplit_den. Qed.
Print Assumptions C39_zphase_split.
Theorem C39_xphase_split : forall k t p s, cden (xsplit t p) s = gden (GX k t p) s.
Proof. intros k. exact xsplit_den. Qed.
Print Assumptions C39_xphase_split.
Theorem C39_circuit_split : forall c s, cden (cgates (c_split c)) s = cden (cgates c) s.
Proof. exact c_split_den. Qed.
Print Assumptions C39_circuit_split.
Example C39_case : zsplit KZPhase 2 (frac (-5) 4) = [Zg 2; Tg 2 true] /\ zsplit KZPhase 2 (frac 7 2) = [Sg 2 true] /\ xsplit 1 (frac 9 4) = [GHAD 1; Tg 1 false; GHAD 1] /\
  zsplit KZPhase 0 (frac 2 3) = [GZ KZPhase 0 (frac 2 3)].
Proof. repeat split; vm_compute; reflexivity. Qed.

Theorem C44_depth : forall c, 0 < cqubits c -> circ_ok c -> (forall g, In g (cgates c) -> counted g) -> exists d, c_depth c = Ok d /\ longest_chain (cgates c) d.
Proof. exact depth_spec. Qed.
Print Assumptions C44_depth.
Theorem C44_depth_swap : forall n l1 g h l2, circ_ok (mkCirc n (l1 ++ g :: h :: l2)) -> (forall g', In g' (l1 ++ g :: h :: l2) -> counted g') -> ~ share g h ->
  c_depth (mkCirc n (l1 ++ g :: h :: l2)) = c_depth (mkCirc n (l1 ++ h :: g :: l2)).
Proof. exact depth_swap. Qed.
Print Assumptions C44_depth_swap.
Definition exd : list gate := [GCNOT 0 1; GHAD 2; GCCZ 0 2 3; Tg 1 true; GSWAP 1 3; GX KXPhase 0 (frac 1 7)].
Example C44_case : circ_ok (mkCirc 4 exd) /\ (forall g, In g exd -> counted g) /\ c_depth (mkCirc 4 exd) = Ok 3 /\ ~ share (GCNOT 0 1) (GHAD 2).
Proof.
  split; [circ_tac|]. split; [intros g H; repeat (destruct H as [<-|H]; [exact I|]); destruct H|]. split; [vm_compute; reflexivity|].
  intros [q [A B]]. simpl in *. intuition lia.
Qed.
(** gates of the other classes are skipped *)
Theorem C44_depth_refuted : exists c, circ_ok c /\ c_depth c = Ok 0 /\ longest_chain (cgates c) 1.
Proof.
  exists (mkCirc 1 [GY KYPhase 0 (frac 1 2)]). split; [circ_tac|]. split; [vm_compute; reflexivity|]. split.
  - exists ([] ++ [GY KYPhase 0 (frac 1 2)]). split; [apply (sub_take [] []); constructor|]. split; [apply linked_one|reflexivity].
  - intros a S _. destruct (subseq_inv _ _ S [] _ eq_refl) as [S'|[a' [-> S']]]; apply subseq_nil_r in S'; subst; simpl; lia.
Qed.
Print Assumptions C44_depth_refuted.

Theorem C48_add_circuit_mask : forall c d mask, circ_ok c -> circ_ok d -> (forall g, In g (cgates d) -> rep_good g) ->
  NoDup mask -> length mask = cqubits d -> (forall q, In q mask -> q < cqubits c) ->
  exists r, c_add_mask c d mask = Ok r /\ cqubits r = cqubits c /\ circ_ok r /\
    forall s x, cden (cgates r) s x = cden (cgates d) (fun y => cden (cgates c) s (place mask x y)) (pull mask x).
Proof. exact add_mask_ok. Qed.
Print Assumptions C48_add_circuit_mask.
Theorem C48_tensor : forall c d, circ_ok c -> circ_ok d -> (forall g, In g (cgates d) -> rep_good g) ->
  exists r, c_tensor c d = Ok r /\ cqubits r = cqubits c + cqubits d /\ circ_ok r /\
    forall s x, cden (cgates r) s x =
      cden (cgates d) (fun y => cden (cgates c) s (fun q => if q <? cqubits c then x q else if q <? cqubits c + cqubits d then y (q - cqubits c) else x q))
        (fun i => x (i + cqubits c)).
Proof. exact tensor_ok. Qed.
Print Assumptions C48_tensor.
Definition exc2 : circuit := mkCirc 3 [GCRY 0 2 (frac 1 3); GU3 1 (frac 1 5) (frac 2 7) (frac (-3) 4); GParity (frac 1 4) [1; 0; 2]; GTof 2 0 1].
Example C48_case : circ_ok exc /\ circ_ok exc2 /\ (forall g, In g (cgates exc2) -> rep_good g) /\ NoDup [3; 0; 2] /\
  (exists r, c_add_mask exc exc2 [3; 0; 2] = Ok r /\ last (cgates r) (GHAD 0) = GTof 2 3 0) /\ (exists r, c_tensor exc exc2 = Ok r /\ last (cgates r) (GHAD 0) = GTof 6 4 5).
Proof.
  split; [exact exc_ok|]. split; [circ_tac|]. split; [intros g H; repeat (destruct H as [<-|H]; [exact I|]); destruct H|].
  split; [repeat constructor; simpl; intuition congruence|]. split; eexists; (split; [vm_compute; reflexivity|reflexivity]).
Qed.
(** FSim gates raise; an RZZ gate keeps its old [control] and [target] *)
Theorem C48_mask_refuted : exists c d1 d2, circ_ok c /\ circ_ok d1 /\ circ_ok d2 /\ c_add_mask c d1 [1; 0] = Err AttributeError /\
  exists r, c_add_mask c d2 [1; 2] = Ok r /\ cgates r = [GRZZ 0 1 [1; 2] (frac 1 4)] /\ ~ circ_ok r.
Proof.
  exists (mkCirc 3 []), (mkCirc 2 [GFSim 0 1 (frac 1 2) (frac 1 3)]), (mkCirc 2 [RZZ 0 1 (frac 1 4)]).
  split; [intros g []|]. split; [circ_tac|]. split; [circ_tac|]. split; [reflexivity|]. eexists. split; [reflexivity|]. split; [reflexivity|].
  intros O. destruct (O _ (or_introl eq_refl)) as [[_ [_ E]] _]. discriminate.
Qed.
Print Assumptions C48_mask_refuted.
