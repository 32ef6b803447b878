(** Diagrams for the examples and refutations about basicrules.py *)
From Coq Require Import Reals ZArith QArith Qcanon List Bool Arith Lia Lra Permutation.
From Verif Require Import LinModel PermModel CNum Base ScalarModel ScalarProofs GraphModel GraphSem GraphProofs GraphOps
  RulesModel RuleLemmas SimpModel InvProofs AlgUse ZXFacts RunEx BasicRulesModel BasicColor BasicFuse BasicPi StrongComp BasicCopy.
Import ListNotations.
Open Scope nat_scope.

Definition gok2 (g : graph) : Prop := zxok g /\ bdeg g.
Lemma gok2_b : forall g, zinvb g = true -> gok2 g.
Proof. intros g H. apply zinvb_ok in H. split; apply H. Qed.

(** a Z spider of phase pi with an X spider before the output *)
Definition bx_pi : graph := mkgraph [(ZSP, 1%Qc); (XSP, 0%Qc); (BOUNDARY, 0%Qc)] [(0, 1, SIMPLE); (1, 2, SIMPLE)] [] [2].
Lemma bx_pi_sem : sem bx_pi (fun _ => false) = C1.
Proof.
  assert (T : to_number scalar_init = C1) by (unfold to_number, scalar_init; simpl; rewrite cexp_0, sq2p_0; ring).
  lazy -[C Cmult Cplus Copp Cminus cexp qmod2 sq2p C1 C0 to_number scalar_init frac]. rewrite T.
  change {| this := 1; canon := Qred_involutive 1 |} with 1%Qc. change {| this := 0; canon := Qred_involutive 0 |} with 0%Qc.
  rewrite ?cexp_qmod2, ?cexp_0, ?cexp_1. unfold Cminus. 
  transitivity ((sq2p (-1) * sq2p (-1) * (C1 + C1)))%C; [ring|apply half].
Qed.
Theorem pi_commute_refuted : exists v g g', zxok g /\ bdeg g /\ In v (vertices g) /\ pi_commute_Z v g = Ok (true, g') /\ ~ same_map g g'.
Proof.
  destruct (gok2_b bx_pi) as [Z B]; [vm_compute; reflexivity|].
  destruct (pi_Z_ok 0 bx_pi Z B) as (g' & E & _ & _ & _ & _ & _ & _ & _ & H).
  { vm_compute; auto. } { vm_compute; auto. }
  { intros w Hw. assert (D : w = 1). { destruct w as [|[|[|w]]]; auto; exfalso; apply Hw; vm_compute; reflexivity. } subst w. right. split; vm_compute; reflexivity. }
  exists 0, bx_pi, g'. split; auto. split; auto. split; [vm_compute; auto|]. split; auto. intros [_ [_ S]].
  specialize (H (fun _ => false)). rewrite S, bx_pi_sem in H. replace (phase bx_pi 0) with 1%Qc in H by (vm_compute; reflexivity).
  rewrite cexp_1 in H. apply (f_equal fst) in H. cbn in H. lra.
Qed.

(** an X spider on a Z spider of phase 1/4 *)
Definition bx_copy : graph := mkgraph [(XSP, 0%Qc); (ZSP, frac 1 4); (BOUNDARY, 0%Qc)] [(0, 1, SIMPLE); (1, 2, SIMPLE)] [] [2].
Theorem copy_X_nothing_refuted : exists v g, zxok g /\ bdeg g /\ In v (vertices g) /\ copy_X v g = Ok (true, g).
Proof.
  destruct (gok2_b bx_copy) as [Z B]; [vm_compute; reflexivity|]. exists 0, bx_copy. split; auto. split; auto. split; [vm_compute; auto|]. vm_compute. reflexivity.
Qed.

(** a Z spider of phase pi and an X spider of phase pi, with two more legs each *)
Definition bx_comp : graph := mkgraph [(BOUNDARY, 0%Qc); (BOUNDARY, 0%Qc); (ZSP, 1%Qc); (XSP, 1%Qc); (BOUNDARY, 0%Qc); (BOUNDARY, 0%Qc)]
  [(0, 2, SIMPLE); (1, 2, HADAMARD); (2, 3, SIMPLE); (3, 4, SIMPLE); (3, 5, HADAMARD)] [0; 1] [4; 5].
Lemma bx_comp_run : gok2 bx_comp /\ exists g', strong_comp 2 3 bx_comp = Ok (true, g') /\ length (vertices g') = 8 /\
  gscalar g' = s_add_phase 1%Qc (s_add_power 1 scalar_init).
Proof. split; [apply gok2_b; vm_compute; reflexivity|]. vm_compute. eexists. split; [reflexivity|]. split; reflexivity. Qed.
(** an X spider of phase pi on a Z spider with three more legs *)
Definition bx_copy3 : graph := mkgraph [(XSP, 1%Qc); (ZSP, 0%Qc); (BOUNDARY, 0%Qc); (BOUNDARY, 0%Qc); (BOUNDARY, 0%Qc)]
  [(0, 1, SIMPLE); (1, 2, SIMPLE); (1, 3, SIMPLE); (1, 4, HADAMARD)] [2] [3; 4].
Lemma bx_copy3_run : gok2 bx_copy3 /\ exists g', copy_X 0 bx_copy3 = Ok (true, g') /\ length (vertices g') = 6.
Proof. split; [apply gok2_b; vm_compute; reflexivity|]. vm_compute. eexists. split; reflexivity. Qed.
Definition bx_copy3z : graph := mkgraph [(ZSP, 1%Qc); (XSP, 0%Qc); (BOUNDARY, 0%Qc); (BOUNDARY, 0%Qc); (BOUNDARY, 0%Qc)]
  [(0, 1, SIMPLE); (1, 2, SIMPLE); (1, 3, SIMPLE); (1, 4, HADAMARD)] [2] [3; 4].
Lemma bx_copy3z_run : gok2 bx_copy3z /\ exists g', copy_Z 0 bx_copy3z = Ok (true, g') /\ length (vertices g') = 6.
Proof. split; [apply gok2_b; vm_compute; reflexivity|]. vm_compute. eexists. split; reflexivity. Qed.
(** two Z spiders on a wire, and a Z spider of phase 0 *)
Definition bx_fuse : graph := mkgraph [(BOUNDARY, 0%Qc); (ZSP, frac 1 4); (ZSP, frac 1 2); (ZSP, 0%Qc); (BOUNDARY, 0%Qc); (XSP, 1%Qc)]
  [(0, 1, SIMPLE); (1, 2, SIMPLE); (2, 3, HADAMARD); (3, 4, SIMPLE); (1, 5, SIMPLE); (2, 5, SIMPLE)] [0] [4].
Lemma bx_fuse_run : gok2 bx_fuse /\ (exists g', fuse 1 2 bx_fuse = Ok (true, g') /\ vertices g' = [0; 1; 3; 4; 5]) /\
  (exists g', remove_id 3 bx_fuse = Ok (true, g') /\ vertices g' = [0; 1; 2; 4; 5]) /\
  (exists g', color_change 5 bx_fuse = Ok (true, g') /\ vty g' 5 = ZSP) /\
  exists g', color_change_diagram bx_fuse = Ok g' /\ vty g' 1 = XSP.
Proof.
  split; [apply gok2_b; vm_compute; reflexivity|]. vm_compute. repeat split; eexists; split; reflexivity.
Qed.
