(** Property theorems about supplementarity (C11). *)
From Coq Require Import Reals ZArith QArith Qcanon List Bool Arith Lia Permutation.
From Verif Require Import CNum Base ScalarModel ScalarProofs GraphModel GraphSem RulesModel SimpModel RuleLemmas PivotMatch InvProofs BfixProofs TotalProofs RunEx ZXFacts RedFacts SuppProofs SuppFacts.
Import ListNotations.
Open Scope nat_scope.

(** ** C11: supplementarity_simp *)
(** Under every order of visits it stops, returns normally, keeps the map and
    leaves no pair that supplementarity could remove. *)
Theorem C11_supplementarity_simp : forall g, sdom g -> halts supplementarity_simp g /\ (exists r, run supplementarity_simp g r) /\
  forall r, run supplementarity_simp g r -> exists n g', r = Ok (n, g') /\ sdom g' /\ map_kept g g' /\ (forall v w, ~ supp_pair g' v w) /\ (n = 0 -> g' = g) /\ (n > 0 -> length (vertices g') < length (vertices g)).
Proof. exact supp_simp_ok. Qed.
Print Assumptions C11_supplementarity_simp.
(** Without isolated vertices every graph-like diagram is in its domain. *)
Theorem C11_domain : forall g g', zinv g -> glike g -> remove_isolated_vertices g = Ok g' -> sdom g'.
Proof. exact isolated_sdom. Qed.
Print Assumptions C11_domain.
(** With isolated non-Clifford spiders it may raise. *)
Theorem C11_isolated_refuted : exists g e, zinv g /\ glike g /\ allph quarter g /\ run supplementarity_simp g (Err e).
Proof. exact supp_raises_refuted. Qed.
Print Assumptions C11_isolated_refuted.

(** a disconnected pair (2, 3) on the spiders 0 and 1, and a connected pair (4, 5) on spider 6 *)
Definition ex_supp : graph := mkgraph [(ZSP, 0%Qc); (ZSP, frac 1 2); (ZSP, frac 1 4); (ZSP, frac 3 4); (ZSP, frac 1 4); (ZSP, frac 7 4); (ZSP, 0%Qc);
    (BOUNDARY, 0%Qc); (BOUNDARY, 0%Qc); (BOUNDARY, 0%Qc)]
  [(0,2,HADAMARD); (0,3,HADAMARD); (1,2,HADAMARD); (1,3,HADAMARD); (4,5,HADAMARD); (4,6,HADAMARD); (5,6,HADAMARD); (0,7,SIMPLE); (1,8,SIMPLE); (6,9,SIMPLE)] [7] [8;9].
Lemma ex_supp_sdom : sdom ex_supp.
Proof.
  assert (Z : zinv ex_supp) by (apply zinvb_ok; vm_compute; reflexivity). split; [exact Z|]. split; [apply glikeb_ok; [apply Z| |]; vm_compute; reflexivity|].
  assert (F : forallb (fun v => negb (Nat.eqb (length (neighbors ex_supp v)) 0)) (vertices ex_supp) = true) by (vm_compute; reflexivity). rewrite forallb_forall in F.
  intros v Hv _ E. specialize (F v Hv). apply (f_equal (@length nat)) in E. cbv beta in F. rewrite E in F. exact (diff_false_true F).
Qed.
Example C11_case : sdom ex_supp /\ exists g', run supplementarity_simp ex_supp (Ok (1, g')) /\ vertices g' = [0;1;6;7;8;9] /\ phase g' 0 = 1%Qc /\ phase g' 1 = frac 3 2 /\ phase g' 6 = 1%Qc.
Proof.
  split; [exact ex_supp_sdom|].
  assert (E : exists g', exec_supp 5 ex_supp = Some (1, g') /\ vertices g' = [0;1;6;7;8;9] /\ phase g' 0 = 1%Qc /\ phase g' 1 = frac 3 2 /\ phase g' 6 = 1%Qc).
  { eexists. split; [vm_compute; reflexivity|]. split; [vm_compute; reflexivity|]. split; [apply Qc_is_canon; vm_compute; reflexivity|]. split; apply Qc_is_canon; vm_compute; reflexivity. }
  destruct E as [g' [E H]]. exists g'. split; [|exact H]. exact (exec_supp_run _ _ _ _ E).
Qed.
