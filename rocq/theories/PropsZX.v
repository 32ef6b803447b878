(** Property theorems about the graph store, scalars and the rewriting of
    ZX-diagrams.  Every theorem is closed by a lemma proved elsewhere.

    Reading guide.  [zxok g]: g is a ZX-diagram (symmetric adjacency without
    self-loops over existing vertices, no H-boxes, phases in [0,2), inputs and
    outputs are boundary vertices).  [zinv g]: moreover every boundary vertex is
    an input or output, has phase 0 and exactly one neighbour, and every vertex
    has a row.  [sem g b]: the value of the diagram for the boundary bits b
    (GraphSem.v).  [map_kept g g'] (ZXFacts.v): same inputs and outputs, value
    kept up to a non-zero factor, and kept exactly if all phases are multiples
    of pi/4.  [run p g r]: some schedule (iteration order of Python sets, filter
    function) makes p return r on g; [halts p g]: no schedule makes p run
    forever.  [md] says whether candidates are filtered by a user function. *)
From Coq Require Import Reals ZArith QArith Qcanon List Bool Arith Lia Permutation.
From Verif Require Import CNum Base ScalarModel ScalarProofs GraphModel GraphSem GraphProofs StoreProofs RulesModel RuleLemmas
  SimpModel ColorProofs PairProofs PiIrr InvProofs BfixProofs TotalProofs TermProofs Decide RunEx ZXFacts IsoExact.
Import ListNotations.
Open Scope nat_scope.

(** ** C01 add_edge *)
Theorem C01_add_edge_sem : forall s t et g g', wfg g -> s <> t -> add_edge s t et g = Ok g' ->
  ginputs g' = ginputs g /\ goutputs g' = goutputs g /\ vertices g' = vertices g /\ (forall v, vty g' v = vty g v) /\
  forall b, sem g' b = sem_with_edge g s t et b.
Proof. exact add_edge_sem. Qed.
Print Assumptions C01_add_edge_sem.
Theorem C01_add_edge_returns : forall s t et g, wfg g -> s <> t -> In s (vertices g) -> In t (vertices g) ->
  (edge_type g s t = None \/ (vertex_is_zx (vty g s) = true /\ vertex_is_zx (vty g t) = true)) ->
  exists g', add_edge s t et g = Ok g'.
Proof. exact add_edge_ok. Qed.
Print Assumptions C01_add_edge_returns.
Theorem C01_add_edge_raises : forall s t et g e, wfg g -> s <> t -> add_edge s t et g = Err e ->
  (e = KeyError /\ (~ In s (vertices g) \/ ~ In t (vertices g))) \/
  (e = ValueError /\ edge_type g s t <> None /\ (vertex_is_zx (vty g s) = false \/ vertex_is_zx (vty g t) = false)).
Proof. exact add_edge_raises. Qed.
Print Assumptions C01_add_edge_raises.
(** parallel edges between two Z spiders, and between a Z and an X spider *)
Example C01_case : wfg ex_spiders /\ edge_type ex_spiders 1 2 = Some SIMPLE /\
  (exists g', add_edge 1 2 HADAMARD ex_spiders = Ok g') /\ (exists g', add_edge 2 3 SIMPLE ex_spiders = Ok g').
Proof.
  assert (W : wfg ex_spiders) by (apply wfgb_ok; vm_compute; reflexivity).
  split; auto. split; [vm_compute; reflexivity|]. split; eexists; vm_compute; reflexivity.
Qed.

(** ** C02 the store *)
Theorem C02_history_store_ok : forall os g, valid_history os empty_graph -> run_ops os empty_graph = Ok g -> store_ok g.
Proof. exact history_store_ok. Qed.
Print Assumptions C02_history_store_ok.
Theorem C02_history_removed : forall os g vs g', valid_history os empty_graph -> run_ops os empty_graph = Ok g ->
  remove_vertices vs g = Ok g' -> forall v, In v vs ->
  ~ In v (vertices g') /\ ~ In v (ginputs g') /\ ~ In v (goutputs g') /\ forall u, ~ In v (neighbors g' u).
Proof. exact history_removed. Qed.
Print Assumptions C02_history_removed.
(** without the restriction to existing vertices the claim fails *)
Theorem C02_set_type_absent_refuted : exists os g, run_ops os empty_graph = Ok g /\ ~ store_ok g.
Proof. exact set_type_absent_refuted. Qed.
Print Assumptions C02_set_type_absent_refuted.
Example C02_case : let os := [AddVertices 3; SetType 0 ZSP; SetPhase 0 (frac 5 2); AddEdge 0 1 SIMPLE; AddEdge 1 2 HADAMARD;
    SetInputs [0]; RemoveVertices [0]; AddVertexIndexed 7; AddVertices 1; AddEdge 1 7 SIMPLE] in
  valid_history os empty_graph /\ exists g, run_ops os empty_graph = Ok g.
Proof.
  cbn zeta. split; [|eexists; vm_compute; reflexivity].
  repeat (cbn [valid_history]; split; [cbn; tauto|let g := fresh in let H := fresh in intros g H; vm_compute in H; first [discriminate H|injection H as <-]]).
  exact I.
Qed.

(** ** C03 scalars *)
Theorem C03_add_power : forall n s, to_number (s_add_power n s) = (sq2p n * to_number s)%C.
Proof. exact add_power_number. Qed.
Print Assumptions C03_add_power.
Theorem C03_add_phase : forall p s, to_number (s_add_phase p s) = (cexp p * to_number s)%C.
Proof. exact add_phase_number. Qed.
Print Assumptions C03_add_phase.
Theorem C03_add_node : forall p s, to_number (s_add_node p s) = ((C1 + cexp p) * to_number s)%C.
Proof. exact add_node_number. Qed.
Print Assumptions C03_add_node.
Theorem C03_add_float : forall f s, to_number (s_add_float f s) = (f * to_number s)%C.
Proof. exact add_float_number. Qed.
Print Assumptions C03_add_float.
Theorem C03_mult_with_scalar : forall s o, to_number (mult_with_scalar s o) = (to_number s * to_number o)%C.
Proof. exact mult_with_scalar_number. Qed.
Print Assumptions C03_mult_with_scalar.
Theorem C03_copy : forall s, to_number (scalar_copy false s) = to_number s.
Proof. exact copy_number. Qed.
Print Assumptions C03_copy.
Theorem C03_conjugate : forall s, to_number (scalar_copy true s) = Cconj (to_number s).
Proof. exact conj_number. Qed.
Print Assumptions C03_conjugate.

(** ** C04 spider pairs *)
Theorem C04_add_spider_pair_refuted : exists p1 p2 s, in02 p1 /\ in02 p2 /\
  to_number (add_spider_pair p1 p2 s) <> ((C1 + cexp p1 + cexp p2 - cexp (p1 + p2)%Qc) * sq2p (-1) * to_number s)%C.
Proof. exact add_spider_pair_refuted. Qed.
Print Assumptions C04_add_spider_pair_refuted.
(** exact unless the phases cancel and are not multiples of pi/4 *)
Theorem C04_add_spider_pair_partial : forall p1 p2 s, in02 p1 -> in02 p2 -> ~ pair_bad p1 p2 ->
  to_number (add_spider_pair p1 p2 s) = ((C1 + cexp p1 + cexp p2 - cexp (p1 + p2)%Qc) * sq2p (-1) * to_number s)%C.
Proof. exact add_spider_pair_number. Qed.
Print Assumptions C04_add_spider_pair_partial.
Example C04_case : in02 (frac 1 3) /\ in02 (frac 3 5) /\ ~ pair_bad (frac 1 3) (frac 3 5) /\ ~ pair_bad (frac 1 4) (frac 7 4).
Proof.
  split; [apply in02b_ok; reflexivity|]. split; [apply in02b_ok; reflexivity|].
  split; [intros [H _]; discriminate H|intros [_ H]; apply H; exists 1%Z; reflexivity].
Qed.

(** ** C05 - C08 and C13: simplifiers *)
Theorem C05_spider_simp : forall md g, zinv g -> halts (spider_simp md) g /\ (exists r, run (spider_simp md) g r) /\
  forall r, run (spider_simp md) g r -> exists n g', r = Ok (n, g') /\ zinv g' /\ map_kept g g'.
Proof. exact spider_correct. Qed.
Print Assumptions C05_spider_simp.
(** without the conditions on boundaries it may raise, but never returns a wrong diagram *)
Theorem C05_spider_simp_any : forall md g n g', zxok g -> run (spider_simp md) g (Ok (n, g')) -> zxok g' /\ map_kept g g'.
Proof. exact spider_kept. Qed.
Print Assumptions C05_spider_simp_any.
Theorem C05_spider_simp_raises_refuted : exists g e, zxok g /\ run (spider_simp AllC) g (Err e).
Proof. exact spider_simp_raises_refuted. Qed.
Print Assumptions C05_spider_simp_raises_refuted.
(** for phases that are not multiples of pi/4 the scalar may be wrong *)
Theorem C05_spider_simp_scalar_refuted : exists g n g', zinv g /\ run (spider_simp AllC) g (Ok (n, g')) /\ forall b, sem g' b <> sem g b.
Proof. exact spider_simp_scalar_refuted. Qed.
Print Assumptions C05_spider_simp_scalar_refuted.
Example C05_case : zinv ex_spiders /\ exists g', run (spider_simp AllC) ex_spiders (Ok (2, g')).
Proof. split; [apply zinvb_ok; vm_compute; reflexivity|]. apply (exec_witness _ _ (exec_spider 9 ex_spiders)); [apply exec_spider_run|vm_compute; reflexivity]. Qed.

Theorem C06_id_simp : forall md g, zinv g -> halts (id_simp md) g /\ (exists r, run (id_simp md) g r) /\
  forall r, run (id_simp md) g r -> exists n g', r = Ok (n, g') /\ zinv g' /\ map_kept g g'.
Proof. exact id_correct. Qed.
Print Assumptions C06_id_simp.
Theorem C06_id_simp_any : forall md g n g', zxok g -> run (id_simp md) g (Ok (n, g')) -> zxok g' /\ map_kept g g'.
Proof. exact id_kept. Qed.
Print Assumptions C06_id_simp_any.
Example C06_case : zinv ex_ids /\ exists g', run (id_simp AllC) ex_ids (Ok (2, g')).
Proof. split; [apply zinvb_ok; vm_compute; reflexivity|]. apply (exec_witness _ _ (exec_id 9 ex_ids)); [apply exec_id_run|vm_compute; reflexivity]. Qed.

Theorem C07_lcomp_simp : forall md g, zinv g -> halts (lcomp_simp md) g /\ (exists r, run (lcomp_simp md) g r) /\
  forall r, run (lcomp_simp md) g r -> exists n g', r = Ok (n, g') /\ zinv g' /\ map_kept g g'.
Proof. exact lcomp_correct. Qed.
Print Assumptions C07_lcomp_simp.
Theorem C07_lcomp_simp_any : forall md g n g', zxok g -> run (lcomp_simp md) g (Ok (n, g')) -> zxok g' /\ map_kept g g'.
Proof. exact lcomp_kept. Qed.
Print Assumptions C07_lcomp_simp_any.
Example C07_case : zinv ex_lc /\ exists g', run (lcomp_simp AllC) ex_lc (Ok (1, g')).
Proof. split; [apply zinvb_ok; vm_compute; reflexivity|]. apply (exec_witness _ _ (exec_lcomp 9 ex_lc)); [apply exec_lcomp_run|vm_compute; reflexivity]. Qed.

Theorem C08_pivot_simp : forall md g, zinv g -> halts (pivot_simp md) g /\ (exists r, run (pivot_simp md) g r) /\
  forall r, run (pivot_simp md) g r -> exists n g', r = Ok (n, g') /\ zinv g' /\ map_kept g g'.
Proof. exact pivot_correct. Qed.
Print Assumptions C08_pivot_simp.
Theorem C08_pivot_simp_any : forall md g n g', zxok g -> run (pivot_simp md) g (Ok (n, g')) -> zxok g' /\ map_kept g g'.
Proof. exact pivot_kept. Qed.
Print Assumptions C08_pivot_simp_any.
Example C08_case : zinv ex_pv /\ exists g', run (pivot_simp AllC) ex_pv (Ok (1, g')).
Proof. split; [apply zinvb_ok; vm_compute; reflexivity|]. apply (exec_witness _ _ (exec_pivot 9 ex_pv)); [apply exec_pivot_run|vm_compute; reflexivity]. Qed.

Theorem C13_interior_clifford_simp : forall md g, zinv g -> halts (interior_clifford_simp md) g /\ (exists r, run (interior_clifford_simp md) g r) /\
  forall r, run (interior_clifford_simp md) g r -> exists n g', r = Ok (n, g') /\ zinv g' /\ map_kept g g'.
Proof. exact interior_clifford_correct. Qed.
Print Assumptions C13_interior_clifford_simp.

(** ** C12 colour change *)
Theorem C12_to_gh : forall g, zxok g -> exists g', to_gh g = Ok g' /\ zxok g' /\ same_map g g' /\
  (forall v, In v (vertices g') -> vty g' v <> XSP) /\ vertices g' = vertices g /\ gphase g' = gphase g.
Proof. exact to_gh_sound. Qed.
Print Assumptions C12_to_gh.
Theorem C12_to_rg : forall select g, zxok g -> exists g', to_rg select g = Ok g' /\ zxok g' /\ same_map g g' /\
  vertices g' = vertices g /\ gphase g' = gphase g.
Proof. exact to_rg_sound. Qed.
Print Assumptions C12_to_rg.
Example C12_case : zxok ex_spiders /\ vty ex_spiders 3 = XSP.
Proof. split; [apply zxokb_ok; vm_compute; reflexivity|reflexivity]. Qed.

(** ** C14 termination, also for diagrams whose boundaries are unrestricted *)
Theorem C14_spider_simp_halts : forall md g, zxok g -> halts (spider_simp md) g.
Proof. exact spider_simp_halts. Qed.
Print Assumptions C14_spider_simp_halts.
Theorem C14_id_simp_halts : forall md g, zxok g -> halts (id_simp md) g.
Proof. exact id_simp_halts. Qed.
Print Assumptions C14_id_simp_halts.
Theorem C14_lcomp_simp_halts : forall md g, zxok g -> halts (lcomp_simp md) g.
Proof. exact lcomp_simp_halts. Qed.
Print Assumptions C14_lcomp_simp_halts.
Theorem C14_pivot_simp_halts : forall md g, zxok g -> halts (pivot_simp md) g.
Proof. exact pivot_simp_halts. Qed.
Print Assumptions C14_pivot_simp_halts.
Theorem C14_interior_clifford_halts : forall md g, zxok g -> halts (interior_clifford_simp md) g.
Proof. exact interior_clifford_halts. Qed.
Print Assumptions C14_interior_clifford_halts.
Example C14_case : zxok ex_bdeg2.
Proof. apply zxokb_ok; vm_compute; reflexivity. Qed.

(** ** C15 isolated groups *)
Theorem C15_isolated_exact : forall g g', zxok g -> remove_isolated_vertices g = Ok g' ->
  (forall v, In v (vertices g') <-> In v (vertices g) /\ ~ isolated g v) /\
  (forall u v, ~ isolated g u -> ~ isolated g v -> edge_type g' u v = edge_type g u v) /\
  (forall v, ~ isolated g v -> vty g' v = vty g v /\ phase g' v = phase g v).
Proof. exact isolated_exact. Qed.
Print Assumptions C15_isolated_exact.
Theorem C15_remove_isolated_value_partial : forall g g', zxok g -> remove_isolated_vertices g = Ok g' -> zxok g' /\ map_kept g g'.
Proof. exact remove_isolated_kept. Qed.
Print Assumptions C15_remove_isolated_value_partial.
Theorem C15_remove_isolated_returns : forall g, zxok g -> bdeg g -> exists g', remove_isolated_vertices g = Ok g'.
Proof. exact remove_isolated_returns. Qed.
Print Assumptions C15_remove_isolated_returns.
Theorem C15_remove_isolated_refuted : exists g g', zinv g /\ remove_isolated_vertices g = Ok g' /\ forall b, sem g' b <> sem g b.
Proof. exact remove_isolated_refuted. Qed.
Print Assumptions C15_remove_isolated_refuted.
Theorem C15_remove_isolated_raises_refuted : exists g e, zxok g /\ remove_isolated_vertices g = Err e.
Proof. exact remove_isolated_raises_refuted. Qed.
Print Assumptions C15_remove_isolated_raises_refuted.
Example C15_case : exists g g', zinv g /\ isolated g 0 /\ ~ isolated g 3 /\ remove_isolated_vertices g = Ok g'.
Proof.
  exists (mkgraph [(ZSP, frac 1 4); (ZSP, frac 1 2); (BOUNDARY, 0%Qc); (ZSP, frac 1 3)] [(0,1,HADAMARD); (2,3,SIMPLE)] [2] []).
  eexists. split; [apply zinvb_ok; vm_compute; reflexivity|].
  split; [split; [discriminate|right; exists 1; repeat split; discriminate]|].
  split; [intros [_ [H|[w [H1 [H2 H3]]]]]; [discriminate H|injection H1 as <-; apply H3; reflexivity]|].
  lazy -[add_spider_pair scalar_init]. reflexivity.
Qed.

(** ** C33 phases *)
Theorem C33_set_phase_angle : forall g v p, cexp (phase (set_phase v p g) v) = cexp p /\ in02 (phase (set_phase v p g) v) /\
  forall u, u <> v -> phase (set_phase v p g) u = phase g u.
Proof. exact set_phase_angle. Qed.
Print Assumptions C33_set_phase_angle.
Theorem C33_add_to_phase_angle : forall g v p, cexp (phase (add_to_phase v p g) v) = (cexp (phase g v) * cexp p)%C /\ in02 (phase (add_to_phase v p g) v) /\
  forall u, u <> v -> phase (add_to_phase v p g) u = phase g u.
Proof. exact add_to_phase_angle. Qed.
Print Assumptions C33_add_to_phase_angle.
