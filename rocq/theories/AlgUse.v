(** Consequences of the theorems about building diagrams, and counterexamples *)
From Coq Require Import Reals ZArith QArith Qcanon List Bool Arith Lia Lra Permutation Ascii.
From Verif Require Import CNum Base ScalarModel ScalarProofs GraphModel GraphSem SumLemmas GraphProofs GraphOps RulesModel RuleLemmas
  InvProofs TotalProofs GrowTotal Decide RunEx ZXFacts GateModel CircSpec AmpProofs CircGraphProofs VerifyProofs GraphAlgModel GraphAlgProofs GraphAlgFacts ComposeProofs ComposeFacts ApplyProofs.
Import ListNotations.
Open Scope C_scope.

Lemma no_wire_copy : forall h r f S, iso h f r -> incl S (vertices h) -> no_wire h S -> no_wire r (map f S).
Proof.
  intros h r f S I SV N u v Hu Hv. apply in_map_iff in Hu. destruct Hu as [u' [<- Hu]]. apply in_map_iff in Hv. destruct Hv as [v' [<- Hv]].
  rewrite (is_e _ _ _ I) by auto. auto.
Qed.
Theorem plus_val : forall g h, zinv g -> io_ok g -> zinv h -> io_ok h -> length (goutputs g) = length (ginputs h) ->
  no_wire g (goutputs g) -> no_wire h (ginputs h) ->
  exists r, g_plus g h = Ok r /\ zinv r /\ io_ok r /\ length (ginputs r) = length (ginputs g) /\ length (goutputs r) = length (goutputs h) /\
  forall inp y w0, val r inp y = sumv (seq 0 (length (goutputs g))) (fun w => val g inp w * val h w y) w0.
Proof.
  intros g h Zg Ng Zh Nh L NO NI. destruct (copy_val g Zg Ng) as [g' [f [E [IS [_ [_ [GI [GO [Z' [N' [_ [_ V]]]]]]]]]]]].
  unfold g_plus. rewrite E. cbn [bind].
  destruct (compose_val g' h) as [r [R [Zr [Nr [Ir [Or Vr]]]]]]; auto.
  - rewrite GO, map_length. auto.
  - rewrite GO. apply (no_wire_copy g); auto. apply zinv_incl. auto.
  - exists r. split; auto. split; auto. split; auto. split; [rewrite Ir, GI, map_length; auto|]. split; auto.
    intros inp y w0. rewrite (Vr inp y w0), GO, map_length. apply sumv_ext. intros w. rewrite V. auto.
Qed.
Theorem times_val : forall g h, zinv g -> io_ok g -> zinv h -> io_ok h -> length (goutputs h) = length (ginputs g) ->
  no_wire h (goutputs h) -> no_wire g (ginputs g) ->
  exists r, g_times g h = Ok r /\ zinv r /\ io_ok r /\ length (ginputs r) = length (ginputs h) /\ length (goutputs r) = length (goutputs g) /\
  forall inp y w0, val r inp y = sumv (seq 0 (length (goutputs h))) (fun w => val h inp w * val g w y) w0.
Proof. intros. exact (plus_val h g H1 H2 H H0 H3 H4 H5). Qed.
Lemma compose_arity : forall g h, zinv h -> io_ok h -> length (goutputs g) <> length (ginputs h) -> compose g h = Err TypeError.
Proof.
  intros g h Z N L. destruct (copy_val h Z N) as [h' [f [E [_ [_ [_ [GI _]]]]]]]. unfold compose. rewrite E. cbn [bind].
  unfold compose_with. rewrite GI, map_length. apply Nat.eqb_neq in L. rewrite L. auto.
Qed.

Lemma scalar_init_number : to_number scalar_init = C1.
Proof. unfold to_number, scalar_init; simpl; rewrite cexp_0, sq2p_0; ring. Qed.
Theorem merge_use : forall g h, wfg g -> zinv h -> qubs_ok h -> exists r f, merge g h = Ok (r, map f (vertices h)) /\
  inj_on f (vertices h) /\ vertices r = vertices g ++ map f (vertices h) /\ (forall v, In v (vertices h) -> ~ In (f v) (vertices g)) /\
  (forall u, In u (vertices g) -> vty r u = vty g u /\ phase r u = phase g u) /\
  (forall u v, In u (vertices g) -> In v (vertices g) -> edge_type r u v = edge_type g u v) /\
  (forall u v, In u (vertices g) -> In v (vertices h) -> edge_type r u (f v) = None) /\
  (forall v, In v (vertices h) -> vty r (f v) = vty h v /\ phase r (f v) = phase h v) /\
  (forall u v, In u (vertices h) -> In v (vertices h) -> edge_type r (f u) (f v) = edge_type h u v) /\
  ginputs r = ginputs g /\ goutputs r = goutputs g /\
  forall b, to_number (gscalar h) * sem r b = sem g b * sem h (fun v => b (f v)).
Proof.
  intros g h W Z Q. destruct (merge_ok g h W) as [r [f [E [G S]]]]; auto; try apply (zi_zx _ Z); try apply Z. exists r, f. split; auto.
  destruct (graft_fresh _ _ f r (gf_wf _ _ _ _ _ _ G) (gf_v _ _ _ _ _ _ G)) as [I [Fr _]].
  split; auto. split; [apply G|]. split; auto. split; [apply G|]. split; [intros; apply G; auto|].
  split; [intros u v Hu Hv; apply (graft_cross _ _ _ _ _ _ W G); auto; apply in_map; auto|].
  split. { intros v Hv. destruct (gf_nt _ _ _ _ _ _ G v Hv) as [A B]. split; auto. rewrite B. assert (X := zx_ph _ (zi_zx _ Z) v). apply qmod2_id; apply X; auto. }
  split; [intros; apply G; auto|]. split; [apply G|]. split; [apply G|]. auto.
Qed.
Theorem subgraph_use : forall h verts, zinv h -> qubs_ok h -> NoDup verts -> incl verts (vertices h) -> exists r f, subgraph_from_vertices h verts = Ok r /\
  inj_on f verts /\ vertices r = map f verts /\
  (forall v, In v verts -> vty r (f v) = vty h v /\ phase r (f v) = phase h v) /\
  (forall u v, In u verts -> In v verts -> edge_type r (f u) (f v) = edge_type h u v) /\
  ginputs r = [] /\ goutputs r = [] /\ to_number (gscalar r) = C1.
Proof.
  intros h verts Z Q N I. destruct (subgraph_ok h verts) as [r [f [E G]]]; auto; try apply (zi_zx _ Z); try apply Z. exists r, f. split; auto.
  destruct (graft_fresh _ _ f r (gf_wf _ _ _ _ _ _ G) (gf_v _ _ _ _ _ _ G)) as [J _].
  split; auto. split; [apply (gf_v _ _ _ _ _ _ G)|].
  split. { intros v Hv. destruct (gf_nt _ _ _ _ _ _ G v Hv) as [A B]. split; auto. rewrite B. assert (X := zx_ph _ (zi_zx _ Z) v). apply qmod2_id; apply X; auto. }
  split; [intros; apply G; auto|]. split; [apply G|]. split; [apply G|]. rewrite (gf_s _ _ _ _ _ _ G). apply scalar_init_number.
Qed.

(** ** Counterexamples *)
Definition ex_cup : graph := mkgraph [(BOUNDARY, 0%Qc); (BOUNDARY, 0%Qc)] [(0, 1, SIMPLE)]%nat [] [0; 1]%nat.
Definition ex_cap : graph := mkgraph [(BOUNDARY, 0%Qc); (BOUNDARY, 0%Qc)] [(0, 1, SIMPLE)]%nat [0; 1]%nat [].
Definition ex_two : graph := mkgraph [(BOUNDARY, 0%Qc); (BOUNDARY, 0%Qc); (ZSP, frac 1 4); (XSP, 1%Qc); (BOUNDARY, 0%Qc); (BOUNDARY, 0%Qc)]
  [(0, 2, SIMPLE); (2, 3, SIMPLE); (1, 3, HADAMARD); (2, 4, SIMPLE); (3, 5, SIMPLE)]%nat [0; 1]%nat [4; 5]%nat.
Definition ex_wire2 : graph := mkgraph [(BOUNDARY, 0%Qc); (BOUNDARY, 0%Qc); (BOUNDARY, 0%Qc); (BOUNDARY, 0%Qc)] [(0, 3, SIMPLE); (1, 2, HADAMARD)]%nat [0; 1]%nat [2; 3]%nat.
Definition io_okb (g : graph) : bool := (fix nd (l : list nat) := match l with [] => true | a :: l => negb (mem a l) && nd l end) (ginputs g ++ goutputs g).
Lemma io_okb_ok : forall g, io_okb g = true -> io_ok g.
Proof.
  intros g. unfold io_okb, io_ok. generalize (ginputs g ++ goutputs g). induction l as [|a l IH]; intros H; [constructor|].
  apply andb_true_iff in H. destruct H as [A B]. constructor; auto. apply mem_false, negb_true_iff. auto.
Qed.
Definition no_wireb (g : graph) (S : list nat) : bool := forallb (fun u => forallb (fun v => match edge_type g u v with None => true | _ => false end) S) S.
Lemma no_wireb_ok : forall g S, no_wireb g S = true -> no_wire g S.
Proof.
  intros g S H u v Hu Hv. unfold no_wireb in H. rewrite forallb_forall in H. specialize (H u Hu). rewrite forallb_forall in H. specialize (H v Hv). destruct (edge_type g u v); [discriminate|auto].
Qed.
Lemma compose_cup_refuted : exists g h, zinv g /\ io_ok g /\ zinv h /\ io_ok h /\ length (goutputs g) = length (ginputs h) /\ compose g h = Err KeyError.
Proof.
  exists ex_cup, ex_two. split; [apply zinvb_ok; vm_compute; reflexivity|]. split; [apply io_okb_ok; vm_compute; reflexivity|].
  split; [apply zinvb_ok; vm_compute; reflexivity|]. split; [apply io_okb_ok; vm_compute; reflexivity|]. split; [reflexivity|vm_compute; reflexivity].
Qed.
Lemma compose_cap_refuted : exists g h, zinv g /\ io_ok g /\ zinv h /\ io_ok h /\ length (goutputs g) = length (ginputs h) /\ no_wire g (goutputs g) /\ compose g h = Err KeyError.
Proof.
  exists ex_two, ex_cap. split; [apply zinvb_ok; vm_compute; reflexivity|]. split; [apply io_okb_ok; vm_compute; reflexivity|].
  split; [apply zinvb_ok; vm_compute; reflexivity|]. split; [apply io_okb_ok; vm_compute; reflexivity|]. split; [reflexivity|]. split; [apply no_wireb_ok; vm_compute; reflexivity|vm_compute; reflexivity].
Qed.
(** a string shorter than the list of inputs: the inputs it does not reach stop being inputs *)
Lemma apply_short_refuted : exists s g r v, zinv g /\ io_ok g /\ Forall known s /\ (length s < length (ginputs g))%nat /\ apply_state s g = Ok r /\
  In v (ginputs g) /\ In v (vertices r) /\ vty r v = BOUNDARY /\ ~ In v (ginputs r) /\ ~ In v (goutputs r).
Proof.
  exists ["0"%char], ex_two. eexists. exists 1%nat. split; [apply zinvb_ok; vm_compute; reflexivity|]. split; [apply io_okb_ok; vm_compute; reflexivity|].
  split; [repeat constructor|]. split; [simpl; lia|]. split; [vm_compute; reflexivity|]. vm_compute. intuition discriminate.
Qed.
(** merge leaves the scalar of the other diagram behind *)
Lemma merge_scalar_refuted : exists g h r vs, zinv g /\ zinv h /\ vertices h = [] /\ merge g h = Ok (r, vs) /\ to_number (gscalar r) <> to_number (gscalar g) * to_number (gscalar h).
Proof.
  exists empty_graph, (on_scalar (s_add_power 2) empty_graph), empty_graph, []. split; [apply zinvb_ok; vm_compute; reflexivity|]. split; [apply zinvb_ok; vm_compute; reflexivity|].
  split; [reflexivity|]. split; [reflexivity|]. change (gscalar (on_scalar (s_add_power 2) empty_graph)) with (s_add_power 2 (gscalar empty_graph)). rewrite add_power_number.
  change (gscalar empty_graph) with scalar_init. rewrite scalar_init_number, sq2p_2. intros H.
  assert (X : fst C1 = fst (C1 * ((C1 + C1) * C1))) by congruence. unfold C1, Cmult, Cplus in X. simpl in X. lra.
Qed.
