(** C36 generalised flow.

    [is_gflow g l c] is the definition of a (XY-plane) generalised flow: every
    measured vertex v has a correction set c v of non-input vertices in strictly
    earlier layers (layers are counted from the outputs), v has an odd number of
    neighbours in c v, and every other vertex with an odd number of neighbours in
    c v lies in a strictly earlier layer. *)
From Coq Require Import QArith Qcanon List Bool Arith Lia Permutation.
From Verif Require Import Base GraphModel GraphProofs RuleLemmas TotalProofs ZXFacts RunEx GflowModel GflowProofs.
Import ListNotations.
Open Scope nat_scope.

Theorem C36_gflow : forall sp sc h g, (forall k l, Permutation (sp k l) l) -> (forall k l, Permutation (sc k l) l) ->
  wfg g -> (forall v, In v (ginputs g) \/ In v (goutputs g) -> In v (vertices g)) -> (forall v, In v (ginputs g) -> ~ In v (goutputs g)) ->
  exists r h', gflow sp sc h g = Ok (r, h') /\
  match r with
  | Some (l, c, k) => is_gflow g (lf l) (cf c) /\
      (forall v, In v (dkeys l) <-> measured g v \/ In v (goutputs g)) /\ (forall v, In v (dkeys c) <-> measured g v) /\
      (forall v, In v (goutputs g) -> lf l v = 0) /\ (forall v, lf l v < k) /\
      (forall l' c', is_gflow g l' c' -> forall v, measured g v -> lf l v <= l' v)
  | None => ~ exists l' c', is_gflow g l' c'
  end.
Proof. exact gflow_exact. Qed.
Print Assumptions C36_gflow.
(** two wires: 0-1-2-3 and 4-5-6-7 with 1,2,5,6 spiders and 2 joined to 5, and the same with an extra leaf on 2 *)
Definition ex_flow : graph := mkgraph [(BOUNDARY, 0%Qc); (ZSP, 0%Qc); (ZSP, 0%Qc); (BOUNDARY, 0%Qc); (BOUNDARY, 0%Qc); (ZSP, 0%Qc); (ZSP, 0%Qc); (BOUNDARY, 0%Qc)]
  [(0, 1, SIMPLE); (1, 2, HADAMARD); (2, 3, SIMPLE); (4, 5, SIMPLE); (5, 6, HADAMARD); (6, 7, SIMPLE); (2, 5, HADAMARD)] [0; 4] [3; 7].
Definition ex_noflow : graph := mkgraph [(BOUNDARY, 0%Qc); (ZSP, 0%Qc); (BOUNDARY, 0%Qc); (ZSP, 0%Qc)] [(0, 1, SIMPLE); (1, 2, SIMPLE); (1, 3, HADAMARD)] [0] [2].
Example C36_case : wfg ex_flow /\ wfg ex_noflow /\ (forall v, In v (ginputs ex_flow) -> ~ In v (goutputs ex_flow)) /\
  gflow (fun _ l => l) (fun _ l => rev l) [] ex_flow =
    Ok (Some ([(3, 0); (7, 0); (6, 1); (2, 1); (5, 2); (1, 2)], [(6, [7]); (2, [3]); (5, [6]); (1, [6; 2])], 3), [0; 1; 0; 1; 0; 1; 0; 1]) /\
  gflow (fun _ l => l) (fun _ l => rev l) [] ex_noflow = Ok (None, [0]).
Proof.
  split; [apply (zx_wf _ (zi_zx _ (zinvb_ok ex_flow ltac:(vm_compute; reflexivity))))|].
  split; [apply (zx_wf _ (zi_zx _ (zinvb_ok ex_noflow ltac:(vm_compute; reflexivity))))|].
  split; [intros v [<-|[<-|[]]]; intros [X|[X|[]]]; discriminate X|]. split; vm_compute; reflexivity.
Qed.
