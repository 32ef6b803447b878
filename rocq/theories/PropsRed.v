(** Property theorems: growing pivots, gadget fusion and the reduction
    strategies (C08, C09, C13). *)
From Coq Require Import Reals ZArith QArith Qcanon List Bool Arith Permutation.
From Verif Require Import CNum Base ScalarModel ScalarProofs GraphModel GraphSem GraphProofs IsoProofs RuleLemmas RulesModel SimpModel SimpProofs PivotMatch TotalProofs RoundProofs InvProofs
  Decide RunEx ZXFacts IsoExact GrowTotal FullTotal RedFacts.
Import ListNotations.
Open Scope nat_scope.

(** ** C08: every execution on a graph-like diagram returns normally *)
Theorem C08_pivot_gadget_simp : forall md g, zinv g -> glike g -> forall r, run (pivot_gadget_simp md) g r ->
  exists n g', r = Ok (n, g') /\ (zinv g' /\ glike g') /\ map_kept g g'.
Proof. exact pivot_gadget_correct. Qed.
Print Assumptions C08_pivot_gadget_simp.
Theorem C08_pivot_boundary_simp : forall md g, zinv g -> glike g -> forall r, run (pivot_boundary_simp md) g r ->
  exists n g', r = Ok (n, g') /\ (zinv g' /\ glike g') /\ map_kept g g'.
Proof. exact pivot_boundary_correct. Qed.
Print Assumptions C08_pivot_boundary_simp.
Example C08_gadget_case : zinv ex_pv /\ glike ex_pv /\ (exists g', run (pivot_gadget_simp AllC) ex_pv (Ok (1, g'))) /\
  exists g', run (pivot_boundary_simp AllC) ex_pv (Ok (2, g')).
Proof.
  assert (Z : zinv ex_pv) by (apply zinvb_ok; vm_compute; reflexivity).
  split; auto. split; [apply glikeb_ok; [apply Z| |]; vm_compute; reflexivity|].
  split.
  - apply (exec_witness _ _ (exec_pivot_gadget 9 ex_pv)); [apply exec_pivot_gadget_run|vm_compute; reflexivity].
  - apply (exec_witness _ _ (exec_pivot_boundary 9 ex_pv)); [apply exec_pivot_boundary_run|vm_compute; reflexivity].
Qed.

(** ** C09: gadget fusion *)
(** when no two interior Pauli spiders of degree above one are adjacent - the
    situation in which full_reduce calls it *)
Theorem C09_gadget_simp_partial : forall md g, zinv g -> glike g -> psep g -> forall r, run (gadget_simp md) g r ->
  exists n g', r = Ok (n, g') /\ (zinv g' /\ glike g' /\ psep g') /\ map_kept g g'.
Proof. exact gadget_correct. Qed.
Print Assumptions C09_gadget_simp_partial.
(** on graph-like diagrams in general the scalar can come out wrong *)
Theorem C09_gadget_simp_refuted : exists g n g', zinv g /\ glike g /\ allph quarter g /\ run (gadget_simp AllC) g (Ok (n, g')) /\
  forall b, sem g' b <> sem g b.
Proof. exact gadget_simp_refuted. Qed.
Print Assumptions C09_gadget_simp_refuted.

(** ** C13: strategies *)
Theorem C13_clifford_simp : forall g, zinv g -> forall r, run (clifford_simp AllC) g r ->
  exists n g', r = Ok (n, g') /\ (zinv g' /\ glike g' /\ psep g') /\ map_kept g g'.
Proof. exact clifford_correct. Qed.
Print Assumptions C13_clifford_simp.
Theorem C13_full_reduce : forall g, zinv g -> forall r, run (full_reduce AllC) g r ->
  exists u g', r = Ok (u, g') /\ (zinv g' /\ glike g') /\ map_kept g g'.
Proof. exact full_reduce_correct. Qed.
Print Assumptions C13_full_reduce.
(** with a filter [matchf] clifford_simp can change the map *)
Theorem C13_clifford_simp_filter_refuted : exists g n g', zinv g /\ run (clifford_simp Filtered) g (Ok (n, g')) /\ ~ same_upto g g'.
Proof. exact clifford_simp_filter_refuted. Qed.
Print Assumptions C13_clifford_simp_filter_refuted.
(** a diagram on which full_reduce fuses two gadgets *)
Definition ex_full : graph := mkgraph
  [(BOUNDARY, 0%Qc); (BOUNDARY, 0%Qc); (ZSP, frac 1 4); (ZSP, frac 1 3); (ZSP, 0%Qc); (ZSP, frac 1 4); (ZSP, 1%Qc); (ZSP, frac 1 4); (ZSP, frac 1 2); (XSP, frac 1 3)]
  [(0,2,SIMPLE); (1,3,SIMPLE); (4,2,HADAMARD); (4,3,HADAMARD); (4,5,HADAMARD); (6,2,HADAMARD); (6,3,HADAMARD); (6,7,HADAMARD); (2,8,HADAMARD); (8,9,SIMPLE); (9,3,SIMPLE)] [0] [1].
Example C13_case : zinv ex_full /\ exists u g', run (full_reduce AllC) ex_full (Ok (u, g')) /\ g' <> ex_full.
Proof.
  split; [apply zinvb_ok; vm_compute; reflexivity|].
  destruct (exec_full 12 ex_full) as [[u g']|] eqn:E; [|vm_compute in E; discriminate].
  exists u, g'. split; [apply (exec_full_run 12); exact E|]. intros X. subst g'. vm_compute in E. discriminate.
Qed.
(** the gadgets of ex_full meet the hypotheses of C09 once it is graph-like *)
Definition ex_gad : graph := mkgraph
  [(BOUNDARY, 0%Qc); (BOUNDARY, 0%Qc); (ZSP, frac 1 4); (ZSP, frac 1 3); (ZSP, 0%Qc); (ZSP, frac 1 4); (ZSP, 1%Qc); (ZSP, frac 1 4)]
  [(0,2,SIMPLE); (1,3,SIMPLE); (4,2,HADAMARD); (4,3,HADAMARD); (4,5,HADAMARD); (6,2,HADAMARD); (6,3,HADAMARD); (6,7,HADAMARD)] [0] [1].
Example C09_case : zinv ex_gad /\ glike ex_gad /\ psep ex_gad /\ exists g', run (gadget_simp AllC) ex_gad (Ok (1, g')).
Proof.
  assert (Z : zinv ex_gad) by (apply zinvb_ok; vm_compute; reflexivity).
  split; auto. split; [apply glikeb_ok; [apply Z| |]; vm_compute; reflexivity|]. split.
  - apply psepb_ok; vm_compute; reflexivity.
  - apply (exec_witness _ _ (exec_gadget 9 ex_gad)); [apply exec_gadget_run|vm_compute; reflexivity].
Qed.
