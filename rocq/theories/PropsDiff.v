(** Property theorems about differences of graphs (C32). *)
From Coq Require Import Reals ZArith QArith Qcanon List Bool Arith Lia Permutation.
From Verif Require Import CNum Base ScalarModel ScalarProofs GraphModel GraphSem GraphProofs RulesModel RuleLemmas SimpModel RunEx Decide DiffModel DiffProofs.
Import ListNotations.
Open Scope nat_scope.

(** ** C32: GraphDiff(g1, g2).apply_diff(g1) *)
(** Whatever order the sets of vertices and edges are visited in, it returns a
    graph with the vertices, the edges and their types, and the types, phases
    and positions of g2. *)
Theorem C32_diff_apply : forall g1 g2 so eo, wfg g1 -> wfg g2 -> noloop g1 -> noloop g2 -> allph in02 g2 -> set_order so -> (forall l, Permutation (eo l) l) ->
  exists g', apply_diff (calculate_diff so eo g1 g2) g1 = Ok g' /\ wfg g' /\
    (forall v, In v (vertices g') <-> In v (vertices g2)) /\ (forall u v, edge_type g' u v = edge_type g2 u v) /\
    (forall v, In v (vertices g2) -> vty g' v = vty g2 v /\ phase g' v = phase g2 v /\ qubit g' v = qubit g2 v /\ row g' v = row g2 v) /\
    (forall b, sem g' b * to_number (gscalar g2) = sem g2 b * to_number (gscalar g1))%C.
Proof. exact diff_apply. Qed.
Print Assumptions C32_diff_apply.

(** The scalar, the inputs and the outputs are not part of a difference: they
    stay those of g1 (without the removed vertices). *)
Theorem C32_interface_refuted : exists g1 g2 g', wfg g1 /\ wfg g2 /\ noloop g1 /\ noloop g2 /\ allph in02 g2 /\
  apply_diff (calculate_diff (fun l => l) (fun l => l) g1 g2) g1 = Ok g' /\
  ginputs g' <> ginputs g2 /\ goutputs g' <> goutputs g2 /\ exists b, sem g' b <> sem g2 b.
Proof. exact diff_interface. Qed.
Print Assumptions C32_interface_refuted.

(** a spider changes its type, phase and edge; one is removed and two are added *)
Definition ex_d1 : graph := mkgraph [(ZSP, 0%Qc); (ZSP, frac 1 2); (XSP, frac 1 4); (BOUNDARY, 0%Qc)] [(0,1,SIMPLE); (1,2,HADAMARD); (0,3,SIMPLE); (2,3,SIMPLE)] [3] [].
Definition ex_d2 : graph :=
  match remove_vertices [1] (mkgraph [(XSP, frac 1 2); (ZSP, 0%Qc); (XSP, frac 1 4); (BOUNDARY, 0%Qc); (HBOX, 1%Qc); (ZSP, frac 7 4)]
    [(0,1,SIMPLE); (0,3,HADAMARD); (0,2,HADAMARD); (2,4,SIMPLE); (4,5,HADAMARD)] [3] []) with Ok g => g | Err _ => ex_d1 end.
Example C32_case : (wfg ex_d1 /\ wfg ex_d2 /\ noloop ex_d1 /\ noloop ex_d2 /\ allph in02 ex_d2) /\ exists g', apply_diff (calculate_diff (@rev nat) (@rev (nat * nat)) ex_d1 ex_d2) ex_d1 = Ok g' /\ vertices g' = [0; 2; 3; 5; 4] /\
  edges g' = [(0,3); (0,2); (2,4); (4,5)] /\ map (edge_type g' 0) [2; 3] = [Some HADAMARD; Some HADAMARD] /\ map (vty g') [0; 2; 3; 4; 5] = [XSP; XSP; BOUNDARY; HBOX; ZSP] /\
  phase g' 0 = frac 1 2 /\ phase g' 4 = 1%Qc /\ phase g' 5 = frac 7 4.
Proof.
  split.
  { split; [apply wfgb_ok; vm_compute; reflexivity|]. split; [apply wfgb_ok; vm_compute; reflexivity|]. split; [apply noloopb_ok; vm_compute; reflexivity|]. split; [apply noloopb_ok; vm_compute; reflexivity|].
    intros v Hv. replace (vertices ex_d2) with [0; 2; 3; 4; 5] in Hv by (vm_compute; reflexivity). destruct Hv as [<-|[<-|[<-|[<-|[<-|[]]]]]]; split; vm_compute; congruence. }
  eexists. split; [vm_compute; reflexivity|]. split; [vm_compute; reflexivity|]. split; [vm_compute; reflexivity|]. split; [vm_compute; reflexivity|]. split; [vm_compute; reflexivity|].
  split; [apply Qc_is_canon; vm_compute; reflexivity|]. split; apply Qc_is_canon; vm_compute; reflexivity.
Qed.
