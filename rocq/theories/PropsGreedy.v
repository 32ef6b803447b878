(** Property theorems: the greedy row reductions used by circuit extraction (C47).
    An operation (a, b) adds row a to row b. *)
From Coq Require Import List Bool Arith ZArith Permutation Lia.
From Verif Require Import Base LinModel LinProofs LinAlg LinRank LinUse LinFacts GreedyModel GreedyProofs GreedyFacts.
Import ListNotations.

Local Notation O_ := false. Local Notation I_ := true.
Definition exg : mat := [[I_; I_; O_; O_; I_]; [I_; O_; I_; I_; I_]; [O_; I_; I_; O_; O_]; [I_; I_; O_; I_; I_]].
Lemma exg_wf : wfm exg.
Proof. split; [reflexivity|]. intros x H. repeat (destruct H as [<-|H]; [reflexivity|]). destruct H. Qed.
Lemma exg_small : (Z.of_nat (cols exg) < 10000)%Z.
Proof. reflexivity. Qed.

Theorem C47_greedy_reduction : forall m, wfm m -> (Z.of_nat (cols m) < 10000)%Z -> exists o, greedy_reduction m = Ok o /\
  match o with Some ops => one_reduced m ops | None => rows m <= 16 -> ~ sums_to_one m end.
Proof. exact greedy_spec. Qed.
Print Assumptions C47_greedy_reduction.
Theorem C47_greedy_reduction_flat : forall m, wfm m -> (Z.of_nat (cols m) < 10000)%Z -> exists o, greedy_reduction_flat m = Ok o /\
  match o with Some ops => one_reduced m ops | None => rows m <= 16 -> ~ sums_to_one m end.
Proof. exact greedy_flat_spec. Qed.
Print Assumptions C47_greedy_reduction_flat.
Theorem C47_greedy_two_reduction : forall so, (forall l, NoDup l -> Permutation (so l) l) -> forall m, wfm m -> (Z.of_nat (cols m) < 10000)%Z ->
  exists o, greedy_two_reduction so m = Ok o /\ forall ops, o = Some ops -> two_reduced m ops.
Proof. exact greedy_two_spec. Qed.
Print Assumptions C47_greedy_two_reduction.
Example C47_case : wfm exg /\ (Z.of_nat (cols exg) < 10000)%Z /\ greedy_reduction exg = Ok (Some [(0, 3)]) /\ greedy_reduction_flat exg = Ok (Some [(0, 3)]) /\
  greedy_two_reduction (@rev nat) exg = Ok (Some [(2, 1); (0, 3); (0, 1)]) /\ (forall l : list nat, NoDup l -> Permutation (rev l) l) /\
  greedy_reduction [[I_; I_; O_]; [O_; I_; I_]] = Ok None.
Proof.
  split; [exact exg_wf|]. split; [exact exg_small|]. split; [vm_compute; reflexivity|]. split; [vm_compute; reflexivity|]. split; [vm_compute; reflexivity|].
  split; [intros; symmetry; apply Permutation_rev|vm_compute; reflexivity].
Qed.
