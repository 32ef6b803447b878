(** Property theorems about the T-count (C53). *)
From Coq Require Import Reals ZArith QArith Qcanon List Bool Arith.
From Verif Require Import CNum Base ScalarModel GraphModel GraphSem GraphProofs RuleLemmas SimpModel TotalProofs GrowTotal FullTotal SuppProofs Decide RunEx ZXFacts RedFacts SimuModel TCountFacts.
Import ListNotations.
Open Scope nat_scope.

(** ** C53 *)
(** tcount returns the number of spiders whose phase is no multiple of pi/2. *)
Theorem C53_count : forall g l, wfg g -> NoDup l -> (forall v, In v l <-> In v (vertices g) /\ ~ exists z, phase g v = frac z 2) -> tcount_r g = Ok (length l).
Proof. exact tcount_counts. Qed.
Print Assumptions C53_count.
(** No execution of a simplifier increases it. *)
Theorem C53_full_reduce : forall g n r, zinv g -> tcount_r g = Ok n -> run (full_reduce AllC) g r ->
  exists u g' m, r = Ok (u, g') /\ tcount_r g' = Ok m /\ m <= n.
Proof. exact (proj2 reduce_lowers). Qed.
Print Assumptions C53_full_reduce.
Theorem C53_clifford_simp : forall g n r, zinv g -> tcount_r g = Ok n -> run (clifford_simp AllC) g r ->
  exists u g' m, r = Ok (u, g') /\ tcount_r g' = Ok m /\ m <= n.
Proof. exact (proj1 reduce_lowers). Qed.
Print Assumptions C53_clifford_simp.
Theorem C53_basic : forall md, lowers zinv (spider_simp md) /\ lowers zinv (id_simp md) /\ lowers zinv (lcomp_simp md) /\ lowers zinv (pivot_simp md) /\ lowers zinv (interior_clifford_simp md).
Proof. exact basic_lowers. Qed.
Print Assumptions C53_basic.
Theorem C53_gadgets : forall md, lowers zg (pivot_gadget_simp md) /\ lowers zg (pivot_boundary_simp md) /\ lowers zgp (gadget_simp md).
Proof. exact grow_lowers. Qed.
Print Assumptions C53_gadgets.
Theorem C53_supplementarity : lowers sdom supplementarity_simp.
Proof. exact supp_lowers. Qed.
Print Assumptions C53_supplementarity.
(** Five non-Clifford spiders, of which full_reduce leaves three. *)
Definition ex_tc : graph := mkgraph
  [(BOUNDARY, 0%Qc); (BOUNDARY, 0%Qc); (ZSP, frac 1 4); (ZSP, frac 1 3); (ZSP, 0%Qc); (ZSP, frac 1 4); (ZSP, 1%Qc); (ZSP, frac 1 4); (ZSP, frac 1 2); (XSP, frac 1 3)]
  [(0,2,SIMPLE); (1,3,SIMPLE); (4,2,HADAMARD); (4,3,HADAMARD); (4,5,HADAMARD); (6,2,HADAMARD); (6,3,HADAMARD); (6,7,HADAMARD); (2,8,HADAMARD); (8,9,SIMPLE); (9,3,SIMPLE)] [0] [1].
Example C53_case : zinv ex_tc /\ tcount_r ex_tc = Ok 5 /\ exists u g', run (full_reduce AllC) ex_tc (Ok (u, g')) /\ tcount_r g' = Ok 3.
Proof.
  split; [apply zinvb_ok; vm_compute; reflexivity|]. split; [vm_compute; reflexivity|].
  assert (X : exists u g', exec_full 12 ex_tc = Some (u, g') /\ tcount_r g' = Ok 3).
  { eexists. eexists. split; vm_compute; reflexivity. }
  destruct X as [u [g' [E T]]]. exists u, g'. split; [apply (exec_full_run 12); exact E|exact T].
Qed.
