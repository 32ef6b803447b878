(** remove_isolated_vertices removes exactly the isolated groups (C15), and
    the diagram on which the scalar it records is wrong. *)
From Coq Require Import Reals ZArith QArith Qcanon List Bool Arith Lia Permutation Lra.
From Verif Require Import CNum Base ScalarModel ScalarProofs GraphModel GraphSem SumLemmas GraphProofs GraphOps StoreProofs
  RulesModel RuleLemmas SpiderProofs IsoProofs PairProofs InvProofs BfixProofs TotalProofs SimpModel Decide RunEx ZXFacts.
Import ListNotations.
Open Scope nat_scope.

(** v is not a boundary and is alone, or paired with exactly one other non-boundary vertex *)
Definition isolated (g : graph) (v : nat) : Prop :=
  vty g v <> BOUNDARY /\
  (neighbors g v = [] \/ exists w, neighbors g v = [w] /\ neighbors g w = [v] /\ vty g w <> BOUNDARY).

Lemma iso_step_in : forall g v rem s rem' g', wfg g -> isolated_step (rem, with_scalar s g) v = Ok (rem', g') ->
  (exists s', g' = with_scalar s' g) /\ incl rem rem' /\ (isolated g v -> In v rem').
Proof.
  intros g v rem s rem' g' W H. unfold isolated_step in H.
  assert (X1 : forall f, on_scalar f (with_scalar s g) = with_scalar (f s) g) by reflexivity.
  inv_bind H. apply neighbors_r_inv in E. destruct E as [Iv Ea]. change (neighbors (with_scalar s g) v) with (neighbors g v) in Ea. subst a.
  destruct (neighbors g v) as [|w [|w' l]] eqn:Nv.
  - inv_bind H. destruct a; try discriminate; injection H as <- <-; rewrite X1; (split; [eauto|split; [apply incl_appl, incl_refl|intros _; apply in_app_iff; simpl; auto]]).
  - destruct (existsb (Nat.eqb v) rem) eqn:M.
    { injection H as <- <-. split; [eauto|]. split; [apply incl_refl|]. intros _. apply mem_spec. exact M. }
    inv_bind H. apply vtype_r_inv in E. destruct E as [E _]. change (vty (with_scalar s g) v) with (vty g v) in E. subst a.
    destruct (vtype_eqb (vty g v) BOUNDARY) eqn:Bv.
    { injection H as <- <-. split; [eauto|]. split; [apply incl_refl|]. intros [X _]. apply vtype_eqb_eq in Bv. contradiction. }
    inv_bind H. apply neighbors_r_inv in E. destruct E as [Iw Ea]. change (neighbors (with_scalar s g) w) with (neighbors g w) in Ea. subst a.
    destruct (Nat.ltb_spec 1 (length (neighbors g w))) as [L|L].
    { injection H as <- <-. split; [eauto|]. split; [apply incl_refl|]. intros [_ [X|[w' [X1' [X2 _]]]]]; [congruence|].
      rewrite Nv in X1'. injection X1' as <-. rewrite X2 in L. simpl in L. lia. }
    inv_bind H. apply vtype_r_inv in E. destruct E as [E _]. change (vty (with_scalar s g) w) with (vty g w) in E. subst a.
    destruct (vtype_eqb (vty g w) BOUNDARY) eqn:Bw.
    { injection H as <- <-. split; [eauto|]. split; [apply incl_refl|]. intros [_ [X|[w' [X1' [X2 X3]]]]]; [congruence|].
      rewrite Nv in X1'. injection X1' as <-. apply vtype_eqb_eq in Bw. contradiction. }
    inv_bind H. injection H as <- <-. rewrite X1. split; [eauto|]. split; [apply incl_appl, incl_refl|].
    intros _. apply in_app_iff; simpl; auto.
  - injection H as <- <-. split; [eauto|]. split; [apply incl_refl|].
    intros [_ [X|[z [X _]]]]; rewrite Nv in X; discriminate.
Qed.
Lemma iso_fold_in : forall g vs rem s rem' g', wfg g -> foldM isolated_step vs (rem, with_scalar s g) = Ok (rem', g') ->
  incl rem rem' /\ forall v, In v vs -> isolated g v -> In v rem'.
Proof.
  intros g. induction vs as [|v vs IH]; intros rem s rem' g' W H; cbn [foldM] in H.
  - injection H as <- <-. split; [apply incl_refl|simpl; tauto].
  - inv_bind H. destruct a as [rem1 g1]. destruct (iso_step_in _ _ _ _ _ _ W E) as [[s' ->] [I1 C1]].
    destruct (IH _ _ _ _ W H) as [I2 C2]. split; [eapply incl_tran; eauto|]. intros u [<-|Hu] HI; auto.
Qed.

Theorem isolated_exact : forall g g', zxok g -> remove_isolated_vertices g = Ok g' ->
  (forall v, In v (vertices g') <-> In v (vertices g) /\ ~ isolated g v) /\
  (forall u v, ~ isolated g u -> ~ isolated g v -> edge_type g' u v = edge_type g u v) /\
  (forall v, ~ isolated g v -> vty g' v = vty g v /\ phase g' v = phase g v).
Proof.
  intros g g' Z H. assert (W := zx_wf g Z). unfold remove_isolated_vertices in H. inv_bind H. destruct a as [rem g1].
  assert (INV : iso_inv nonzero g [] rem g1).
  { apply (isolated_fold nonzero g Z (proj1 good_nonzero) (iso_good nonzero anyph g good_nonzero Z (fun _ _ => I)) (vertices g) [] g); auto.
    - apply wf_nd; auto.
    - exists [], (gscalar g), C1. repeat split; try (constructor; fail); try (simpl; tauto).
      + destruct g; reflexivity.
      + apply good_nonzero.
      + simpl. ring. }
  destruct INV as [grp [s1 [k [R1 [G1 [ND [CP [HV _]]]]]]]].
  assert (W1 : wfg g1) by (subst g1; destruct W; constructor; auto).
  assert (EI : foldM isolated_step (vertices g) ([], with_scalar (gscalar g) g) = Ok (rem, g1)) by (destruct g; exact E).
  apply iso_fold_in in EI; auto. destruct EI as [_ COMP].
  assert (SND : forall v, In v rem -> isolated g v).
  { intros v Hv. assert (NB := proj2 (HV v Hv)). assert (IB : forall u, isB g u = false -> vty g u <> BOUNDARY).
    { intros u X Y. unfold isB in X. rewrite Y in X. discriminate. }
    split; [apply IB; auto|]. assert (Hv' := Hv). rewrite R1 in Hv'. apply in_flat_map in Hv'. destruct Hv' as [c [Hc Hi]].
    assert (IR : forall u, In u c -> In u rem) by (intros u Hu; rewrite R1; apply in_flat_map; eauto).
    destruct (CP c Hc) as [[x [-> N]]|[x [y [-> [D [Nx Ny]]]]]].
    - destruct Hi as [<-|[]]. auto.
    - right. destruct Hi as [<-|[<-|[]]]; [exists y|exists x]; (split; [auto|split; [auto|apply IB, HV, IR; simpl; auto]]). }
  assert (R := remove_vertices_spec _ _ _ W1 H). subst g1.
  assert (IFF : forall v, In v (vertices g) -> (mem v rem = false <-> ~ isolated g v)).
  { intros v Hv. rewrite mem_false. split; [intros X Y; apply X, COMP; auto|intros X Y; apply X, SND; auto]. }
  assert (NM : forall v, ~ isolated g v -> mem v rem = false) by (intros v Hv; apply mem_false; intros X; apply Hv, SND; auto).
  split; [|split].
  - intros v. rewrite (rm_vs _ _ _ R), filter_In, negb_true_iff. change (vertices (with_scalar s1 g)) with (vertices g).
    split; intros [X Y]; (split; [auto|apply IFF; auto]).
  - intros u v Hu Hv. rewrite (rm_edge _ _ _ R), !NM by auto. reflexivity.
  - intros v Hv. assert (N := NM v Hv). apply mem_false in N. split; [rewrite (rm_ty _ _ _ R) by auto; reflexivity|rewrite (rm_phase _ _ _ R) by auto; reflexivity].
Qed.

Theorem remove_isolated_kept : forall g g', zxok g -> remove_isolated_vertices g = Ok g' -> zxok g' /\ map_kept g g'.
Proof.
  intros g g' Z H. apply kept_of_steps.
  - apply (remove_isolated_good nonzero anyph g g'); auto using good_nonzero. intros v _. exact I.
  - intros Q. apply (remove_isolated_good (eq C1) quarter g g'); auto using good_quarter.
Qed.
Theorem remove_isolated_returns : forall g, zxok g -> bdeg g -> exists g', remove_isolated_vertices g = Ok g'.
Proof. intros g Z B. destruct (isolated_ok g Z B) as [g' [_ [_ [H _]]]]. eauto. Qed.

(** ** The recorded scalar is wrong for a pair of phases pi/3, 5pi/3 *)
Definition ex_third : graph := mkgraph [(ZSP, frac 1 3); (ZSP, frac 5 3)] [(0,1,HADAMARD)] [] [].
Lemma third_value : spider_pair_value (frac 1 3) (frac 5 3) <> to_number (add_spider_pair (frac 1 3) (frac 5 3) scalar_init).
Proof.
  assert (I1 : in02 (frac 1 3)) by (split; unfold Qle, Qlt; simpl; lia).
  assert (I2 : in02 (frac 5 3)) by (split; unfold Qle, Qlt; simpl; lia).
  rewrite bad_pair_code by (auto using third_bad). rewrite (sum0_value _ _ (proj1 third_bad)).
  assert (T : to_number scalar_init = C1).
  { unfold to_number, scalar_init. simpl. rewrite cexp_0, sq2p_0. ring. }
  rewrite T. intros E. rewrite !Cmult_1_r in E. apply Cmult_cancel_l in E; [|apply sq2p_neq0].
  apply (f_equal fst) in E. unfold RtoC in E. cbn [fst] in E.
  assert (P := PI2_1). assert (P3 := PI2_3_2).
  assert (V : Q2R (this (frac 1 3)) = (1 / 3)%R) by (unfold Q2R; simpl; lra).
  rewrite V in E.
  assert (L : (cos (PI * (1/3)) < cos (1/3))%R) by (apply cos_decreasing_1; lra).
  lra.
Qed.

Lemma third_pair : forall s, to_number s <> C0 ->
  to_number (add_spider_pair (frac 1 3) (frac 5 3) s) <> (spider_pair_value (frac 1 3) (frac 5 3) * to_number s)%C.
Proof.
  intros s N E.
  assert (I1 : in02 (frac 1 3)) by (split; unfold Qle, Qlt; simpl; lia).
  assert (I2 : in02 (frac 5 3)) by (split; unfold Qle, Qlt; simpl; lia).
  apply third_value. rewrite bad_pair_code in * by (auto using third_bad).
  assert (T : to_number scalar_init = C1).
  { unfold to_number, scalar_init. simpl. rewrite cexp_0, sq2p_0. ring. }
  rewrite T. apply (Cmult_cancel_l (to_number s)); auto.
  replace (to_number s * spider_pair_value (frac 1 3) (frac 5 3))%C with (spider_pair_value (frac 1 3) (frac 5 3) * to_number s)%C by ring.
  rewrite <- E. ring.
Qed.
Ltac unfold_sem := lazy -[C Cmult Cplus Copp Cminus cexp qmod2 sq2p C1 C0 to_number scalar_init spider_pair_value].
(** two spiders joined by a Hadamard wire, and what is left of them *)
Definition pair_graph (p q : Qc) : graph := set_phase 0 p (set_phase 1 q (mkgraph [(ZSP, 0%Qc); (ZSP, 0%Qc)] [(0,1,HADAMARD)] [] [])).
Lemma pair_removed : forall p q, exists g', remove_isolated_vertices (pair_graph p q) = Ok g' /\
  gscalar g' = add_spider_pair (qmod2 p) (qmod2 q) scalar_init /\ vertices g' = [].
Proof.
  intros p q. lazy -[add_spider_pair qmod2 scalar_init]. eexists. split; [reflexivity|]. split; reflexivity.
Qed.
Lemma sem_nil : forall g b, vertices g = [] -> sem g b = to_number (gscalar g).
Proof. intros g b V. unfold sem, internal. rewrite V. unfold integL. cbn. ring. Qed.
Lemma pair_sem : forall p q b, sem (pair_graph p q) b = spider_pair_value p q.
Proof.
  intros p q b. unfold sem. replace (internal (pair_graph p q)) with [0;1] by reflexivity. unfold_sem.
  unfold spider_pair_value. change {| this := 0; canon := Qred_involutive 0 |} with 0%Qc. rewrite ?cexp_qmod2, ?cexp_0, cexp_add. unfold to_number. cbn. rewrite ?cexp_0, ?sq2p_0. ring.
Qed.
Theorem remove_isolated_refuted : exists g g', zinv g /\ remove_isolated_vertices g = Ok g' /\ forall b, sem g' b <> sem g b.
Proof.
  exists (pair_graph (frac 1 3) (frac 5 3)). destruct (pair_removed (frac 1 3) (frac 5 3)) as [g' [E [S V]]]. exists g'.
  split; [apply zinvb_ok; vm_compute; reflexivity|]. split; [exact E|]. intros b. rewrite sem_nil, pair_sem, S by auto.
  rewrite !qmod2_id by (unfold Qle, Qlt; simpl; lia). intros X. apply third_value. auto.
Qed.

(** the same diagram next to two spiders that can be fused: spider_simp *)
Definition fuse_graph (p q : Qc) : graph := set_phase 2 p (set_phase 3 q (mkgraph [(ZSP, 0%Qc); (ZSP, 0%Qc); (ZSP, 0%Qc); (ZSP, 0%Qc)] [(0,1,SIMPLE); (2,3,HADAMARD)] [] [])).
Lemma fuse_run : forall p q, exists g', exec_spider 2 (fuse_graph p q) = Some (1, g') /\
  gscalar g' = add_spider_pair (qmod2 p) (qmod2 q) (s_add_node 0%Qc scalar_init) /\ vertices g' = [].
Proof.
  intros p q. lazy -[add_spider_pair s_add_node qmod2 scalar_init]. eexists. split; [reflexivity|]. split; reflexivity.
Qed.
Lemma fuse_sem : forall p q b, sem (fuse_graph p q) b = (spider_pair_value p q * (C1 + C1))%C.
Proof.
  intros p q b. unfold sem. replace (internal (fuse_graph p q)) with [0;1;2;3] by reflexivity. unfold_sem.
  unfold spider_pair_value. change {| this := 0; canon := Qred_involutive 0 |} with 0%Qc. rewrite ?cexp_qmod2, ?cexp_0, cexp_add. unfold to_number. cbn. rewrite ?cexp_0, ?sq2p_0. ring.
Qed.
Theorem spider_simp_scalar_refuted : exists g n g', zinv g /\ run (spider_simp AllC) g (Ok (n, g')) /\ forall b, sem g' b <> sem g b.
Proof.
  exists (fuse_graph (frac 1 3) (frac 5 3)), 1. destruct (fuse_run (frac 1 3) (frac 5 3)) as [g' [E [S V]]]. exists g'.
  split; [apply zinvb_ok; vm_compute; reflexivity|]. split; [eapply exec_spider_run; exact E|].
  intros b. rewrite sem_nil, fuse_sem, S by auto. rewrite !qmod2_id by (unfold Qle, Qlt; simpl; lia).
  assert (T : to_number (s_add_node 0%Qc scalar_init) = (C1 + C1)%C).
  { rewrite add_node_number, cexp_0. unfold to_number, scalar_init. simpl. rewrite cexp_0, sq2p_0. ring. }
  intros X. apply (third_pair (s_add_node 0%Qc scalar_init)); rewrite T; auto.
  rewrite <- sq2p_2. apply sq2p_neq0.
Qed.

(** ** A boundary with two wires makes spider_simp raise *)
Definition ex_bdeg2 : graph := mkgraph [(ZSP, 0%Qc); (ZSP, 0%Qc); (BOUNDARY, 0%Qc)] [(0,1,SIMPLE); (0,2,SIMPLE); (1,2,SIMPLE)] [] [2].
Theorem spider_simp_raises_refuted : exists g e, zxok g /\ run (spider_simp AllC) g (Err e).
Proof.
  exists ex_bdeg2, ValueError. split; [apply zxokb_ok; vm_compute; reflexivity|].
  apply LR_err. left. exists ValueError. split; [|reflexivity]. exists (edges ex_bdeg2). split; [apply Permutation_refl|].
  vm_compute. reflexivity.
Qed.
(** an isolated boundary makes remove_isolated_vertices raise *)
Theorem remove_isolated_raises_refuted : exists g e, zxok g /\ remove_isolated_vertices g = Err e.
Proof.
  exists (mkgraph [(BOUNDARY, 0%Qc)] [] [0] []), TypeError. split; [apply zxokb_ok; vm_compute; reflexivity|]. vm_compute. reflexivity.
Qed.
