(** Property theorems about reduce_scalar (C54), SumGraph and find_stabilizer_decomp (C55). *)
From Coq Require Import Reals ZArith QArith Qcanon List Bool Arith.
From Verif Require Import CNum Base ScalarModel ScalarProofs GraphModel GraphSem GraphProofs RuleLemmas PivotMatch SimpModel BfixProofs TotalProofs GrowTotal FullTotal Decide RunEx ZXFacts RedFacts
  GraphAlgProofs MagicModel MagicAlg MagicSum SimuModel ReduceScalar StabProofs StabEx.
Import ListNotations.
Open Scope nat_scope.

(** ** C54 *)
(** Every execution of reduce_scalar on a diagram without X spiders either raises KeyError
    or returns a graph-like diagram with the same map. *)
Theorem C54_kept : forall g r, zinv g -> noX g -> run reduce_scalar g r ->
  r = Err KeyError \/ exists n g', r = Ok (n, g') /\ zinv g' /\ glike g' /\ psep g' /\ map_kept g g'.
Proof. exact reduce_scalar_correct. Qed.
Print Assumptions C54_kept.
(** It does not increase the T-count. *)
Theorem C54_tcount : forall g n i g', zinv g -> noX g -> tcount_r g = Ok n -> run reduce_scalar g (Ok (i, g')) -> exists m, tcount_r g' = Ok m /\ m <= n.
Proof. exact reduce_scalar_lowers. Qed.
Print Assumptions C54_tcount.
(** The KeyError does happen, on a closed graph-like diagram without isolated spiders. *)
Theorem C54_raises_refuted : exists g, zinv g /\ glike g /\ allph quarter g /\ (forall v, In v (vertices g) -> neighbors g v <> []) /\ run reduce_scalar g (Err KeyError).
Proof. exact reduce_scalar_raises_refuted. Qed.
Print Assumptions C54_raises_refuted.
(** Two gadgets on the same pair of spiders, and a Clifford spider. *)
Definition ex_rs : graph := mkgraph
  [(BOUNDARY, 0%Qc); (BOUNDARY, 0%Qc); (ZSP, frac 1 4); (ZSP, frac 1 3); (ZSP, 0%Qc); (ZSP, frac 1 4); (ZSP, 1%Qc); (ZSP, frac 1 4); (ZSP, frac 1 2)]
  [(0,2,SIMPLE); (1,3,SIMPLE); (4,2,HADAMARD); (4,3,HADAMARD); (4,5,HADAMARD); (6,2,HADAMARD); (6,3,HADAMARD); (6,7,HADAMARD); (2,8,HADAMARD); (8,3,HADAMARD)] [0] [1].
Example C54_case : zinv ex_rs /\ noX ex_rs /\ tcount_r ex_rs = Ok 4 /\ exists n g', run reduce_scalar ex_rs (Ok (n, g')) /\ tcount_r g' = Ok 2.
Proof.
  split; [apply zinvb_ok; vm_compute; reflexivity|]. split; [intros v Hv; vm_compute in Hv; repeat destruct Hv as [<-|Hv]; try (vm_compute; discriminate); destruct Hv|]. split; [vm_compute; reflexivity|].
  assert (X : exists u g', exec_rs 12 ex_rs = Some (u, g') /\ tcount_r g' = Ok 2).
  { eexists. eexists. split; vm_compute; reflexivity. }
  destruct X as [u [g' [E T]]]. exists u, g'. split; [apply (exec_rs_run 12); exact E|exact T].
Qed.

(** ** C55 *)
(** SumGraph.full_reduce returns, drops only terms that are zero, and keeps the sum. *)
Theorem C55_full_reduce : forall gs r, sum_reduce (full_reduce AllC) gs r -> Forall (fun g => zinv g /\ allph quarter g) gs ->
  exists ts, r = Ok ts /\ length ts <= length gs /\ Forall (fun h => zinv h /\ glike h /\ is_zero (gscalar h) = false) ts /\
    forall i y, csum (map (fun h => val h i y) ts) = csum (map (fun h => val h i y) gs).
Proof. exact sum_full. Qed.
Print Assumptions C55_full_reduce.
(** Diagrams of Z spiders with phases multiples of pi/4: every execution of
    find_stabilizer_decomp either raises KeyError, or returns diagrams of T-count 0 with
    the same interface, whose values add up to that of the diagram. *)
Theorem C55_sum : forall g r, sdiag g -> find_stab g r ->
  r = Some (Err KeyError) \/ exists ts, r = Some (Ok ts) /\
    (forall t, In t ts -> sdiag t /\ tcount_r t = Ok 0 /\ length (ginputs t) = length (ginputs g) /\ length (goutputs t) = length (goutputs g)) /\
    forall i y, csum (map (fun t => val t i y) ts) = val g i y.
Proof. exact find_stab_sum. Qed.
Print Assumptions C55_sum.
(** The number of terms is at most max_terms_needed, unless the T-count is a multiple of
    six and at least twelve; for those a larger bound holds ... *)
Theorem C55_bound : forall g ts n m, sdiag g -> find_stab g (Some (Ok ts)) -> tcount_r g = Ok n -> max_terms_needed g = Ok m -> (n mod 6 <> 0 \/ n < 12) -> length ts <= m.
Proof. exact find_stab_bound. Qed.
Print Assumptions C55_bound.
Theorem C55_bound_six : forall g ts k, sdiag g -> find_stab g (Some (Ok ts)) -> 2 <= k -> tcount_r g = Ok (6 * k) -> length ts <= 8 * 7 ^ (k - 1).
Proof. exact find_stab_bound_six. Qed.
Print Assumptions C55_bound_six.
(** ... and max_terms_needed is too small. *)
Theorem C55_max_terms_refuted : exists g ts n, sdiag g /\ find_stab g (Some (Ok ts)) /\ max_terms_needed g = Ok n /\ n < length ts.
Proof. exact max_terms_refuted. Qed.
Print Assumptions C55_max_terms_refuted.
(** With another phase the bare Exception of replace_magic_states comes through. *)
Theorem C55_other_phase_refuted : exists g, zinv g /\ (forall v, In v (vertices g) -> vty g v = ZSP \/ vty g v = BOUNDARY) /\ io_ok g /\ find_stab g None.
Proof. exact stab_eighth_refuted. Qed.
Print Assumptions C55_other_phase_refuted.
(** Twelve T spiders, 56 terms: the bound of C55_bound_six is reached. *)
Example C55_case : sdiag ex_twelve /\ exists ts, find_stab ex_twelve (Some (Ok ts)) /\ length ts = 56 /\ tcount_r ex_twelve = Ok (6 * 2).
Proof. split; [exact ex_twelve_ok|exact ex_twelve_run]. Qed.
