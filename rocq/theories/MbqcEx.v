(** mbqc.py: examples, and apply_pauli behind a Hadamard wire. *)
From Coq Require Import Reals ZArith QArith Qcanon List Bool Arith Lia Lra Permutation Ring.
From Verif Require Import CNum Base ScalarModel ScalarProofs GraphModel GraphSem SumLemmas GraphProofs GraphOps RulesModel RuleLemmas
  SpiderProofs IsoProofs IdProofs LcompProofs PivotProofs PivotMatch GrowProofs StoreProofs InvProofs BfixProofs TotalProofs ZXFacts GraphAlgProofs RunEx IsoExact RedFacts Decide.
From Verif Require Import CongModel CongProofs CongPivot CongEx MbqcModel MbqcProofs MbqcPauli.
Import ListNotations.
Open Scope nat_scope.

Definition place (v : nat) (pos : Z * Z) (g : graph) : graph := set_row v (Qcz (2 * snd pos) + frac 4 5)%Qc (set_qubit v (Qcz (2 * fst pos) - frac 4 5)%Qc g).
Definition hereb (pos : Z * Z) (g : graph) (v : nat) : bool := existsb (Nat.eqb v) (vertices g) && forallb (fun u => Bool.eqb (at_pos pos g u) (Nat.eqb u v)) (vertices g).
Lemma hereb_ok : forall pos g v, hereb pos g v = true -> here pos g v.
Proof.
  intros pos g v H. unfold hereb in H. apply andb_true_iff in H. destruct H as [H1 H2]. rewrite forallb_forall in H2. split; [apply memb_in; auto|].
  intros u Hu. specialize (H2 u Hu). apply Bool.eqb_prop in H2. rewrite <- at_pos_iff, H2. apply Nat.eqb_eq.
Qed.
(** one spider with a Hadamard wire to the output at (0,0) *)
Definition ex_ph : graph := place 1 (0, 0)%Z (mkgraph [(ZSP, 0%Qc); (BOUNDARY, 0%Qc)] [(0, 1, HADAMARD)] [] [1]).
Definition all1 : assignment := fun _ => true.
Lemma ex_ph_0 : sem ex_ph all1 = C0.
Proof. unfold sem. replace (internal ex_ph) with [0] by (vm_compute; reflexivity). unfold_sem. unfold to_number. cbn. change {| this := 0; canon := Qred_involutive 0 |} with 0%Qc. rewrite ?cexp_0, ?sq2p_0. ring. Qed.
Lemma ex_ph_z : exists g', apply_pauli (0, 0)%Z ZSP 1 ex_ph = Ok g' /\ sem g' all1 <> C0.
Proof.
  eexists. split; [vm_compute; reflexivity|]. res_sem. rewrite init_number. intros X. assert (Y : (sq2p (-1) * (C1 + C1) = C0)%C) by (rewrite <- X; ring).
  assert (Z := sq2p_half). assert (Q : (sq2p (-1) * sq2p (-1) * (C1 + C1) = sq2p (-1) * (sq2p (-1) * (C1 + C1)))%C) by ring. rewrite Q, Y in Z. apply C1_neq_C0. rewrite <- Z. ring.
Qed.
Lemma ex_ph_x : exists g', apply_pauli (0, 0)%Z XSP 1 ex_ph = Ok g' /\ sem g' all0 <> C0.
Proof.
  eexists. split; [vm_compute; reflexivity|]. res_sem. rewrite init_number. intros X. assert (Z := sq2p_half). apply C1_neq_C0. rewrite <- Z, <- X. ring.
Qed.
Theorem pauli_z_had_fails : exists pos g v w g', zinv g /\ here pos g v /\ vty g v = BOUNDARY /\ In v (goutputs g) /\ neighbors g v = [w] /\ vty g w = ZSP /\ apply_pauli pos ZSP 1 g = Ok g' /\
  forall k, exists b, sem g' b <> (k * (sgn (b v) * sem g b))%C.
Proof.
  destruct ex_ph_z as [g' [E S]]. exists (0, 0)%Z, ex_ph, 1, 0, g'. split; [apply zinvb_ok; vm_compute; reflexivity|]. split; [apply hereb_ok; vm_compute; reflexivity|].
  split; [reflexivity|]. split; [left; reflexivity|]. split; [reflexivity|]. split; [reflexivity|]. split; [exact E|]. intros k. exists all1. rewrite ex_ph_0. intros X. apply S. rewrite X. ring.
Qed.
Theorem pauli_x_had_fails : exists pos g v w g', zinv g /\ here pos g v /\ vty g v = BOUNDARY /\ In v (goutputs g) /\ neighbors g v = [w] /\ vty g w = ZSP /\ apply_pauli pos XSP 1 g = Ok g' /\
  forall k, exists b, sem g' b <> (k * sem g (upd b v (negb (b v))))%C.
Proof.
  destruct ex_ph_x as [g' [E S]]. exists (0, 0)%Z, ex_ph, 1, 0, g'. split; [apply zinvb_ok; vm_compute; reflexivity|]. split; [apply hereb_ok; vm_compute; reflexivity|].
  split; [reflexivity|]. split; [left; reflexivity|]. split; [reflexivity|]. split; [reflexivity|]. split; [exact E|]. intros k. exists all0.
  assert (Y : sem ex_ph (upd all0 1 (negb (all0 1))) = C0).
  { unfold sem. replace (internal ex_ph) with [0] by (vm_compute; reflexivity). unfold_sem. unfold to_number. cbn. change {| this := 0; canon := Qred_involutive 0 |} with 0%Qc. rewrite ?cexp_0, ?sq2p_0. ring. }
  rewrite Y. intros X. apply S. rewrite X. ring.
Qed.
