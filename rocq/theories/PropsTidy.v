(** Property theorems: limits on matches, unfusing, graph-like form
    (C41, C45, C46). *)
From Coq Require Import Reals ZArith QArith Qcanon List Bool Arith Permutation.
From Verif Require Import CNum Base ScalarModel ScalarProofs GraphModel GraphSem GraphProofs IsoProofs RuleLemmas RulesModel SimpModel SimpProofs PivotMatch TotalProofs RoundProofs InvProofs
  Decide RunEx ZXFacts IsoExact RedFacts TidyModel TidyLoop TidyFacts UnfuseProofs NumProofs.
Import ListNotations.
Open Scope nat_scope.

(** ** C41: with a limit k, the first k matches *)
Theorem C41_spider : forall cands k g, match_spider_parallel cands (Some k) g = firstn k (match_spider_parallel cands None g).
Proof. exact match_spider_parallel_num. Qed.
Print Assumptions C41_spider.
Theorem C41_ids : forall cands k g, match_ids_parallel cands (Some k) g = firstn k (match_ids_parallel cands None g).
Proof. exact match_ids_parallel_num. Qed.
Print Assumptions C41_ids.
Theorem C41_pivot : forall cands k g, match_pivot_parallel cands (Some k) g = firstn k (match_pivot_parallel cands None g).
Proof. exact match_pivot_parallel_num. Qed.
Print Assumptions C41_pivot.
Theorem C41_bialg : forall cands k g, match_bialg_parallel cands (Some k) g = firstn k (match_bialg_parallel cands None g).
Proof. exact match_bialg_parallel_num. Qed.
Print Assumptions C41_bialg.
Theorem C41_pivot_boundary : forall cands k g ms g', match_pivot_boundary cands (Some k) g = Ok (ms, g') -> length ms <= k.
Proof. exact match_pivot_boundary_num. Qed.
Print Assumptions C41_pivot_boundary.
Example C41_case : length (match_spider_parallel (edges ex_spiders) (Some 1) ex_spiders) = 1 /\
  (exists ms g', match_pivot_boundary (vertices ex_pv) (Some 1) ex_pv = Ok (ms, g') /\ length ms = 1).
Proof. split; [vm_compute; reflexivity|]. eexists. eexists. split; [vm_compute; reflexivity|reflexivity]. Qed.
(** match_lcomp_parallel ignores the limit *)
Theorem C41_lcomp_refuted : exists g, length (match_lcomp_parallel (vertices g) (Some 1) g) = 2.
Proof. exists ex_lc2. exact match_lcomp_num_refuted. Qed.
Print Assumptions C41_lcomp_refuted.
Theorem C41_lcomp_ignored : forall cands k g, match_lcomp_parallel cands (Some (S k)) g = match_lcomp_parallel cands None g.
Proof. exact match_lcomp_num_ignored. Qed.
Print Assumptions C41_lcomp_ignored.
(** and match_pivot_gadget loses count *)
Theorem C41_pivot_gadget_refuted : exists g ms g', match_pivot_gadget (edges g) (Some 3) g = Ok (ms, g') /\ length ms = 4.
Proof. exists ex_tri4. exact match_pivot_gadget_num_refuted. Qed.
Print Assumptions C41_pivot_gadget_refuted.

(** ** C45: unfusing *)
(** Every Z or X vertex u, every duplicate-free list ns of its neighbours, every
    phase (given or omitted), every position: the call returns, the value is
    the same, and the wires and phases are where the documentation says. *)
Theorem C45_unspider : forall u ns p q r g, zinv g -> In u (vertices g) -> vty g u <> BOUNDARY -> NoDup ns ->
  (forall n, In n ns -> In n (neighbors g u)) ->
  exists h v, unspider u ns p q r g = Ok (h, v) /\ zinv h /\ same_map g h /\ splits u v ns p g h.
Proof. exact unspider_ok. Qed.
Print Assumptions C45_unspider.
Definition ex_unf : graph := mkgraph [(BOUNDARY, 0%Qc); (BOUNDARY, 0%Qc); (XSP, frac 3 4); (ZSP, frac 1 3)] [(0,2,SIMPLE); (1,2,HADAMARD); (2,3,SIMPLE)] [0] [1].
Example C45_case : zinv ex_unf /\ In 2 (vertices ex_unf) /\ vty ex_unf 2 <> BOUNDARY /\ NoDup [0;3] /\ (forall n, In n [0;3] -> In n (neighbors ex_unf 2)) /\
  exists h, unspider 2 [0;3] (Some (frac 1 4)) (Qcz (-1)) (Qcz (-1)) ex_unf = Ok (h, 4) /\ neighbors h 2 = [1;4] /\ neighbors h 4 = [2;0;3] /\ phase h 2 = frac 1 2.
Proof.
  split; [apply zinvb_ok; vm_compute; reflexivity|]. split; [simpl; auto|]. split; [discriminate|]. split; [repeat constructor; simpl; intuition discriminate|].
  split; [simpl; tauto|]. eexists. split; [vm_compute; reflexivity|]. split; [reflexivity|]. split; [reflexivity|]. apply Qc_is_canon. reflexivity.
Qed.

(** ** C46: graph-like form *)
(** Under every order of fusions: to_graph_like stops, its final assertion
    holds, and the result is a strictly graph-like diagram of the same map. *)
Theorem C46_to_graph_like : forall g, zinv g -> bb_plain g ->
  halts to_graph_like g /\ (exists r, run to_graph_like g r) /\
  forall r, run to_graph_like g r -> exists g', r = Ok (tt, g') /\ tidied g g'.
Proof. exact to_graph_like_ok. Qed.
Print Assumptions C46_to_graph_like.
(** the checker decides the specification *)
Theorem C46_is_graph_like : forall strict g, wfg g -> is_graph_like strict g = true <-> graph_like strict g.
Proof. exact is_graph_like_iff. Qed.
Print Assumptions C46_is_graph_like.
(** a Hadamard wire from an input to an output loses its Hadamard *)
Theorem C46_hadamard_wire_refuted : exists g g', zinv g /\ run to_graph_like g (Ok (tt, g')) /\ ~ same_upto g g'.
Proof. exact to_graph_like_hwire_refuted. Qed.
Print Assumptions C46_hadamard_wire_refuted.
(** a spider with three boundaries, a plain wire, and a red spider to fuse *)
Definition ex_tidy : graph := mkgraph
  [(BOUNDARY, 0%Qc); (BOUNDARY, 0%Qc); (BOUNDARY, 0%Qc); (XSP, frac 1 4); (BOUNDARY, 0%Qc); (BOUNDARY, 0%Qc); (XSP, frac 1 2)]
  [(0,3,SIMPLE); (1,3,HADAMARD); (3,2,SIMPLE); (4,5,SIMPLE); (3,6,SIMPLE)] [0;4] [1;2;5].
Example C46_case : zinv ex_tidy /\ bb_plain ex_tidy /\ exists g', run to_graph_like ex_tidy (Ok (tt, g')) /\ length (vertices g') = 12.
Proof.
  split; [apply zinvb_ok; vm_compute; reflexivity|]. split.
  - intros b c Tb Tc. do 7 (destruct b as [|b]; [do 7 (destruct c as [|c]; [vm_compute; discriminate|]); vm_compute; discriminate|]). vm_compute. discriminate.
  - assert (E : exists g', exec_to_graph_like 9 ex_tidy = Some (tt, g') /\ length (vertices g') = 12) by (eexists; split; [vm_compute; reflexivity|reflexivity]).
    destruct E as [g' [E L]]. exists g'. split; auto. eapply exec_to_graph_like_run; eauto.
Qed.
