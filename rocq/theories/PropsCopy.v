(** Property theorems about state copying (C10). *)
From Coq Require Import Reals ZArith QArith Qcanon List Bool Arith Lia Permutation.
From Verif Require Import CNum Base ScalarModel ScalarProofs GraphModel GraphSem RulesModel SimpModel RuleLemmas PivotMatch InvProofs BfixProofs TotalProofs RunEx ZXFacts RedFacts CopyProofs CopyFacts.
Import ListNotations.
Open Scope nat_scope.

(** ** C10: copy_simp *)
(** Under every order of visits: it stops without error, keeps the map up to
    one non-zero factor, and leaves no state that could be copied. *)
Theorem C10_copy_simp : forall g, zcopy g -> halts copy_simp g /\ (exists r, run copy_simp g r) /\
  forall r, run copy_simp g r -> exists n g', r = Ok (n, g') /\ zcopy g' /\ same_upto g g' /\ forall v w, ~ copyable g' v w.
Proof. exact copy_simp_ok. Qed.
Print Assumptions C10_copy_simp.
(** One round keeps the value exactly when no two of the spiders that receive
    a state are joined. *)
Theorem C10_copy_round_exact : forall g c b g', zcopy g -> Permutation c (vertices g) ->
  (forall v1 w1 v2 w2, copyable g v1 w1 -> copyable g v2 w2 -> edge_type g w1 w2 = None) ->
  simp_once (fun g => Ok (match_copy c g, g)) apply_copy g = Ok (b, g') -> map_kept g g'.
Proof. exact copy_once_exact. Qed.
Print Assumptions C10_copy_round_exact.
(** Otherwise the scalar may be wrong: two states whose spiders are joined. *)
Theorem C10_copy_scalar_refuted : exists g n g', zinv g /\ glike g /\ allph quarter g /\ run copy_simp g (Ok (n, g')) /\ forall b, sem g' b <> sem g b.
Proof. exact copy_simp_refuted. Qed.
Print Assumptions C10_copy_scalar_refuted.

(** a pi state on a spider with an input, an output behind a Hadamard wire and
    a neighbouring spider *)
Definition ex_copy : graph := mkgraph [(BOUNDARY, 0%Qc); (BOUNDARY, 0%Qc); (ZSP, frac 1 4); (ZSP, 1%Qc); (ZSP, frac 1 2); (BOUNDARY, 0%Qc)]
  [(0,2,SIMPLE); (1,2,HADAMARD); (2,3,HADAMARD); (2,4,HADAMARD); (4,5,SIMPLE)] [0] [1;5].
Lemma ex_copy_zcopy : zcopy ex_copy.
Proof. assert (Z : zinv ex_copy) by (apply zinvb_ok; vm_compute; reflexivity). apply zinv_zcopy; auto. apply glikeb_ok; [apply Z| |]; vm_compute; reflexivity. Qed.
Example C10_case : zcopy ex_copy /\ copyable ex_copy 3 2 /\ exists g', run copy_simp ex_copy (Ok (1, g')) /\ length (vertices g') = 6 /\
  vty g' 6 = ZSP /\ phase g' 6 = 1%Qc /\ edge_type g' 1 7 = Some SIMPLE /\ edge_type g' 0 6 = Some HADAMARD /\ phase g' 4 = frac 3 2 /\ phase g' 1 = 1%Qc.
Proof.
  split; [exact ex_copy_zcopy|]. split.
  - split; [vm_compute; tauto|]. split; [reflexivity|]. split; [reflexivity|]. split; [reflexivity|].
    assert (NB : neighbors ex_copy 3 = [2]) by (vm_compute; reflexivity). intros u. rewrite <- GraphProofs.neighbors_spec, NB. simpl. split; [intros [<-|[]]; auto|intros ->; auto].
  - assert (E : exists g', exec_copy 5 ex_copy = Some (1, g') /\ length (vertices g') = 6 /\ vty g' 6 = ZSP /\ phase g' 6 = 1%Qc /\ edge_type g' 1 7 = Some SIMPLE /\ edge_type g' 0 6 = Some HADAMARD /\ phase g' 4 = frac 3 2 /\ phase g' 1 = 1%Qc).
    { eexists. split; [vm_compute; reflexivity|]. split; [reflexivity|]. split; [reflexivity|]. split; [apply Qc_is_canon; vm_compute; reflexivity|]. split; [reflexivity|]. split; [reflexivity|].
      split; apply Qc_is_canon; vm_compute; reflexivity. }
    destruct E as [g' [E H]]. exists g'. split; auto. eapply exec_copy_run; eauto.
Qed.
(** it meets the hypothesis of the exact statement *)
Example C10_case_exact : forall v1 w1 v2 w2, copyable ex_copy v1 w1 -> copyable ex_copy v2 w2 -> edge_type ex_copy w1 w2 = None.
Proof.
  assert (F : forallb (fun v => negb (is_pauli (phase ex_copy v) && vtype_eqb (vty ex_copy v) ZSP) || Nat.eqb v 3) (vertices ex_copy) = true) by (vm_compute; reflexivity).
  assert (NB : neighbors ex_copy 3 = [2]) by (vm_compute; reflexivity). assert (E22 : edge_type ex_copy 2 2 = None) by (vm_compute; reflexivity). rewrite forallb_forall in F.
  assert (X : forall v w, copyable ex_copy v w -> w = 2).
  { intros v w [Iv [Tv [Pv [Tw Ev]]]]. specialize (F v Iv). rewrite Tv, Pv in F. apply Nat.eqb_eq in F. subst v. symmetry. apply Ev, GraphProofs.neighbors_spec. rewrite NB. left. reflexivity. }
  intros v1 w1 v2 w2 H1 H2. rewrite (X _ _ H1), (X _ _ H2). exact E22.
Qed.
