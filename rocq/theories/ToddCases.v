(** Inputs on which todd_simp fails or changes the map, and concrete cases. *)
From Coq Require Import Reals Lra ZArith QArith Qcanon List Bool Arith Lia Permutation FunctionalExtensionality.
From Verif Require Import CNum Base ScalarModel ScalarProofs LinModel LinProofs LinAlg LinFacts GateModel ToddModel ToddSig ToddPoly ToddNet ToddSem ToddProofs.
From Verif Require Import GraphSem CircSpec.
Import ListNotations.
Open Scope nat_scope.

(** with one qubit to_cnots(optimize=True) tries no block size and its assertion fails *)
Theorem todd_simp_1 : forall sh hist gates, Forall (todd_gate 1) gates -> (forall l, Permutation (sh l) l) -> todd_simp sh hist gates 1 = Err AssertionError.
Proof.
  intros sh hist gates F SH. destruct (poly_ok 1 gates F) as [t [ex [E0 [[TK [ops [OKo EX]]] _]]]]. unfold todd_simp. rewrite E0. cbn [bind fst snd].
  assert (TO := tcols_ok 1 t TK). change (to_par_matrix t) with (transpose (tcols t)).
  destruct (todd_iter_ok 1 sh (tcols t) hist TO ltac:(lia) SH) as [cs [h1 [E1 [CO [SE [NT _]]]]]]. rewrite E1. cbn [bind].
  rewrite (transpose_invol 1 cs) by (auto; lia). unfold split_cols. destruct (split_loop 1 cs [] [] CO) as [g1 [E2 _]]. rewrite E2. cbn [bind app].
  unfold add_par_matrix. rewrite (transpose_invol 1 cs) by (auto; lia). rewrite (transpose_invol 1 (tcols t)) by (auto; lia).
  destruct (to_clifford_ok 1 (tcols t) cs TO CO SE) as [gc [E3 _]]. rewrite E3. cbn [bind].
  assert (CW : colsok 1 (wn cs)) by (intros c H; apply filter_In in H; apply CO, H).
  destruct (parity_network_ok 1 (wn cs) CW) as [cn [E4 [OKc _]]]. rewrite E4. cbn [bind].
  destruct (final_cnots 1 h1 ops cn ltac:(lia) OKo OKc) as [mi [h2 [E5 [_ [_ [TR _]]]]]]. rewrite E5. cbn [bind fst snd].
  rewrite EX, to_cnots_opt_1 by (rewrite TR; lia). reflexivity.
Qed.

Definition shid (l : list (list bool)) : list (list bool) := l.
Lemma shid_perm : forall l, Permutation (shid l) l. Proof. intros l. apply Permutation_refl. Qed.
(** a SWAP is taken for a CZ *)
Definition td_swap : list gate := [GSWAP 0 1].
Lemma td_swap_run : todd_simp shid [] td_swap 2 = Ok ([GCZ 0 1], [(0, 0); (1, 1)]).
Proof. vm_compute. reflexivity. Qed.
Definition s01 : state := fun x => if x 0 && negb (x 1) then C1 else C0.
Theorem todd_swap_refuted : exists gates gates' perm, Forall gate_ok gates /\ todd_simp shid [] gates 2 = Ok (gates', perm) /\ ~ (forall s, cden gates' s = cden gates s).
Proof.
  exists td_swap. do 2 eexists. split; [constructor; [split; [apply NoDup_cons; [cbn; intuition lia|apply NoDup_cons; [intros []|apply NoDup_nil]]|split; [discriminate|exact I]]|constructor]|]. split; [apply td_swap_run|]. intros H. specialize (H s01).
  apply (f_equal (fun f : state => f (fun v => Nat.eqb v 1))) in H. cbn [cden td_swap fold_left gden] in H. unfold s01, swapq, upd in H. cbn in H.
  apply (f_equal fst) in H. cbn in H. lra.
Qed.
(** a phase of pi/8 is dropped *)
Definition td_eighth : list gate := [ZPhase 0 (frac 1 8)].
Lemma td_eighth_run : todd_simp shid [] td_eighth 2 = Ok ([], [(0, 0); (1, 1)]).
Proof. vm_compute. reflexivity. Qed.
Lemma cexp_eighth : cexp (frac 1 8) <> C1.
Proof.
  intros E. assert (H : cexp 1%Qc = C1).
  { replace 1%Qc with (frac 1 8 + frac 1 8 + frac 1 8 + frac 1 8 + (frac 1 8 + frac 1 8 + frac 1 8 + frac 1 8))%Qc by (apply Qc_is_canon; reflexivity).
    rewrite !cexp_add, E. ring. }
  rewrite cexp_1 in H. apply (f_equal fst) in H. cbn in H. lra.
Qed.
Theorem todd_eighth_refuted : exists gates gates' perm, Forall gate_ok gates /\ todd_simp shid [] gates 2 = Ok (gates', perm) /\ ~ (forall s, cden gates' s = cden gates s).
Proof.
  exists td_eighth. do 2 eexists. split; [constructor; [split; [apply NoDup_cons; [intros []|apply NoDup_nil]|split; [discriminate|exact I]]|constructor]|]. split; [apply td_eighth_run|]. intros H. specialize (H (fun _ => C1)).
  apply (f_equal (fun f : state => f (fun _ => true))) in H. cbn [cden td_eighth fold_left gden ZPhase] in H. rewrite op1_mP in H.
  apply cexp_eighth. rewrite <- (Cmult_1_r (cexp (frac 1 8))). symmetry. exact H.
Qed.

(** ** Concrete runs *)
Definition td_ccz : list gate :=
  [Tg 0 false; Tg 1 false; Tg 2 false; GCNOT 0 1; Tg 1 true; GCNOT 1 2; Tg 2 false; GCNOT 0 1; GCNOT 1 2; Tg 2 true; GCZ 0 2; Tg 2 false; Sg 1 true].
Definition td_four : list gate :=
  (* two T gates on the parity of qubits 0 and 1, and two more *)
  [Tg 0 false; GCNOT 0 1; Tg 1 false; GCNOT 2 1; Tg 1 false; GCNOT 2 1; Tg 1 false; GCZ 1 2; GCNOT 0 1].
Lemma td_ccz_run : Forall (todd_gate 3) td_ccz /\ exists gs, todd_simp shid [] td_ccz 3 = Ok (gs, [(0, 0); (1, 1); (2, 2)]) /\ tcnt td_ccz = 7 /\ tcnt gs <= 7.
Proof.
  assert (F : Forall (todd_gate 3) td_ccz).
  { unfold td_ccz. repeat (constructor; [cbn; repeat split; try lia; try (exists 1%Z; reflexivity); try (exists (-1)%Z; reflexivity); try (exists (-2)%Z; apply frac_m12)|]). constructor. }
  split; auto. destruct (todd_simp_ok 3 shid [] td_ccz ltac:(lia) F shid_perm) as [gs [A [_ [_ B]]]]. exists gs. split; [exact A|]. split; [reflexivity|exact B].
Qed.
Lemma td_four_run : Forall (todd_gate 3) td_four /\ tcnt td_four = 4 /\ exists gs, todd_simp shid [] td_four 3 = Ok (gs, [(0, 0); (1, 1); (2, 2)]) /\ tcnt gs = 2.
Proof.
  assert (F : Forall (todd_gate 3) td_four).
  { unfold td_four. repeat (constructor; [cbn; repeat split; try lia; try (exists 1%Z; reflexivity)|]). constructor. }
  split; auto. split; [reflexivity|]. vm_compute. eexists. split; reflexivity.
Qed.
