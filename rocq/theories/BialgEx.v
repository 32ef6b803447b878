(** Normal form of bialg_simp, executions, and the two refutations. *)
From Coq Require Import Reals ZArith QArith Qcanon List Bool Arith Lia Permutation Ring Lra.
From Verif Require Import CNum Base ScalarModel ScalarProofs GraphModel GraphSem SumLemmas GraphProofs GraphOps StoreProofs
  RulesModel RuleLemmas SpiderProofs IsoProofs IdProofs LcompProofs PivotProofs GrowProofs PivotMatch GadgetProofs
  SimpModel ColorProofs SimpProofs PairProofs RuleShape TermProofs InvProofs RoundProofs BfixProofs TotalProofs ZXFacts GraphAlgProofs RunEx IsoExact RedFacts CopyFacts Decide Bialg BialgLoop.
Import ListNotations.
Open Scope nat_scope.

(** ** Nothing left to rewrite *)
(** a wire between two phase-free spiders of opposite colours all of whose
    other neighbours are phase-free spiders of the colour of the other end *)
Definition bialgable (g : graph) (u w : nat) : Prop :=
  edge_type g u w <> None /\ opp g u w /\ phase g u = 0%Qc /\ phase g w = 0%Qc /\
  (forall n, edge_type g u n <> None -> n <> w -> vty g n = vty g w /\ phase g n = 0%Qc) /\
  (forall n, edge_type g w n <> None -> n <> u -> vty g n = vty g u /\ phase g n = 0%Qc).
Lemma bialgable_sym : forall g u w, wfg g -> bialgable g u w -> bialgable g w u.
Proof. intros g u w W [A [B [D [E [F G]]]]]. split; [rewrite (wf_sym g W); auto|]. split; [apply opp_sym; auto|]. tauto. Qed.
Lemma bialg_none : forall g c u w, In (u, w) c -> match_bialg_parallel c None g = [] -> ~ bialgable g u w.
Proof.
  intros g c u w Hc E [A [B [P0 [P1 [H0 H1]]]]]. revert E. unfold match_bialg_parallel. generalize 0 at 1.
  induction c as [|[v0 v1] c IH]; [destruct Hc|]. intros i. cbn [match_bialg_loop lim_reached emem existsb].
  destruct Hc as [X|Hc].
  - injection X as -> ->. rewrite P0, P1. replace (qeqb 0%Qc 0%Qc) with true by reflexivity. cbn [andb].
    replace (vtype_eqb (vty g u) ZSP && vtype_eqb (vty g w) XSP || vtype_eqb (vty g u) XSP && vtype_eqb (vty g w) ZSP) with true
      by (destruct B as [[-> ->]|[-> ->]]; reflexivity).
    replace (forallb _ _ && forallb _ _) with true; [discriminate|]. symmetry. apply andb_true_iff. split; apply forallb_forall; intros n Hn;
    apply filter_In in Hn; destruct Hn as [Hn D]; apply neighbors_spec in Hn; apply negb_true_iff, Nat.eqb_neq in D; [destruct (H0 n Hn D) as [-> ->]|destruct (H1 n Hn D) as [-> ->]];
    (replace (qeqb 0%Qc 0%Qc) with true by reflexivity); rewrite andb_true_r; match goal with |- vtype_eqb ?x _ = true => destruct x; reflexivity end.
  - destruct (_ && _); [|apply IH; auto]. destruct (_ && _); [discriminate|apply IH; auto].
Qed.
Lemma bialg_none_all : forall g c, wfg g -> Permutation c (edges g) -> match_bialg_parallel c None g = [] -> forall u w, ~ bialgable g u w.
Proof.
  intros g c W P E u w B. assert (X := B). destruct X as [A [O _]]. assert (D := opp_ne _ _ _ O).
  destruct (Nat.lt_total u w) as [L|[L|L]]; [|contradiction|].
  - apply (bialg_none g c u w); auto. apply (Permutation_in _ (Permutation_sym P)). apply in_edges; auto.
  - apply (bialg_none g c w u); auto; [|apply bialgable_sym; auto]. apply (Permutation_in _ (Permutation_sym P)). apply in_edges; auto. rewrite (wf_sym g W). auto.
Qed.
Lemma bialg_simp_norm : forall g n g', pinv g -> run bialg_simp g (Ok (n, g')) -> forall u w, ~ bialgable g' u w.
Proof.
  intros g n g' PI R.
  destruct (simp_result (ok_edges AllC) (fun c g => Ok (match_bialg_parallel c None g, g)) (fun _ => bialg) pinv vlen) with (g := g) (n := n) (g' := g') (2 := PI) (3 := R) as [PI' [_ [c [Oc E]]]].
  { intros c h b h' Ph Oc E. destruct (bialg_tonce h c Ph Oc) as [b1 [h1 [E1 [[A _] B]]]]. rewrite E in E1. injection E1 as <- <-. auto. }
  injection E as E. apply (bialg_none_all g' c); auto. apply (zi_zx g'), PI'.
Qed.

(** ** Statements *)
Lemma upto_of_step : forall g g', step_k nonzero g g' -> same_upto g g'.
Proof. intros g g' [_ [A [B [k [Hk H]]]]]. split; auto. split; auto. exists k. split; auto. Qed.
Lemma bialg_live : live bialg_simp.
Proof. apply live_simp. intros g. apply (cand_ex _ AllC (edges g)). Qed.
Lemma phase_free_live : live phase_free_simp.
Proof. apply live_bind; [apply spider_live|]. intros i. apply live_bind; [apply bialg_live|]. intros j. apply live_ret. Qed.
Theorem bialg_simp_ok : forall g, zinv g -> plain g -> halts bialg_simp g /\ (exists r, run bialg_simp g r) /\
  forall r, run bialg_simp g r -> exists n g', r = Ok (n, g') /\ zinv g' /\ plain g' /\ same_upto g g' /\ forall u w, ~ bialgable g' u w.
Proof.
  intros g Z P. assert (H := bialg_simp_halts g (conj Z P)). split; auto. split; [apply bialg_live; auto|]. intros r R.
  destruct (bialg_simp_total g r (conj Z P) R) as [n [g' [-> [[Z' P'] [_ S]]]]]. exists n, g'. split; auto. split; auto. split; auto.
  split; [apply upto_of_step; auto|]. apply (bialg_simp_norm g n g'); auto. split; auto.
Qed.
Theorem phase_free_ok : forall g, zinv g -> plain g -> halts phase_free_simp g /\ (exists r, run phase_free_simp g r) /\
  forall r, run phase_free_simp g r -> exists n g', r = Ok (n, g') /\ zinv g' /\ plain g' /\ same_upto g g' /\ forall u w, ~ bialgable g' u w.
Proof.
  intros g Z P. assert (H := phase_free_halts g (conj Z P)). split; auto. split; [apply phase_free_live; auto|]. intros r R.
  destruct (phase_free_total g r (conj Z P) R) as [n [g' [-> [[Z' P'] S]]]]. exists n, g'. split; auto. split; auto. split; auto.
  split; [apply upto_of_step; auto|]. destruct R as [[e [_ R]]|[n1 [g1 [R1 R2]]]]; [discriminate|]. destruct R2 as [[e [_ R2]]|[n2 [g2 [R2 R3]]]]; [discriminate|].
  destruct (spider_simp_tot AllC g _ Z R1) as [n1' [g1' [E1 [Z1 _]]]]. injection E1 as <- <-. simpl in R3. injection R3 as -> ->.
  apply (bialg_simp_norm g1 n2 g2); auto. split; auto. apply (spider_simp_plain AllC g n1 g1 (zi_zx g Z) P R1).
Qed.

(** ** The factor of one round *)
Theorem bialg_factor : forall g c b g', zinv g -> plain g -> allph quarter g -> Permutation c (edges g) ->
  simp_once (fun g => Ok (match_bialg_parallel c None g, g)) bialg g = Ok (b, g') ->
  ginputs g' = ginputs g /\ goutputs g' = goutputs g /\ allph quarter g' /\ forall y, sem g y = (sq2p (bscal (match_bialg_parallel c None g)) * sem g' y)%C.
Proof.
  intros g c b g' ZI P Q Oc H. assert (Z := zi_zx g ZI). assert (W := zx_wf g Z).
  assert (HC : forall e, In e c -> In e (edges g)) by (intros e He; apply (Permutation_in _ Oc); auto).
  assert (ND : NoDup c) by (apply (Permutation_NoDup (Permutation_sym Oc)), edges_nd; auto).
  assert (HO : forall m, In m (match_bialg_parallel c None g) -> bi_ok g m) by (intros m Hm; apply (match_bialg_in g None c 0 [] m W P HC Hm)).
  assert (HF := match_bialg_far g None c 0 [] W P HC ND). fold (match_bialg_parallel c None g) in HF.
  unfold simp_once in H. cbn [bind] in H. set (ms := match_bialg_parallel c None g) in *.
  assert (X : (ms = [] /\ g' = g) \/ exists o, bialg ms g = Ok o /\ apply_rw o = Ok g').
  { destruct ms; [left; injection H as _ <-; auto|right]. inv_bind H. inv_bind H. injection H as _ <-. eauto. }
  destruct X as [[E ->]|[o [E1 E2]]].
  - rewrite E. split; auto. split; auto. split; auto. intros y. cbn [bscal fold_right]. rewrite sq2p_0. ring.
  - destruct (apply_rw_sound (eq C1) quarter (on_scalar (s_add_power (- bscal ms)) g) o g' good_quarter) as [[_ [I' [O' [k [<- K2]]]]] Q']; auto.
    + intros g1 g2 g3 H1 H2 H3. split; [apply (bialg_core g ms Z HO HF o g1 g2 g3); auto|].
      destruct (b_table g ms Z HO HF) as [tab [X1 [X2 _]]]. rewrite E1 in X1. injection X1 as ->. cbn [rw_graph rw_etab rw_verts rw_edges] in *. injection H2 as <-.
      apply (batch_allph quarter _ _ _ _ _ _ pcl_quarter (keep_nd _ g W) W Q X2 H1 H3).
    + split; [exact I'|]. split; [exact O'|]. split; auto. intros y. rewrite K2, sem_power.
      transitivity ((sq2p (bscal ms) * sq2p (- bscal ms)) * sem g y)%C; [|ring]. rewrite <- sq2p_add. replace (bscal ms + - bscal ms)%Z with 0%Z by lia. rewrite sq2p_0. ring.
Qed.

(** ** Executions *)
Definition exec_bialg fuel g := simp_exec edges (fun c g => Ok (match_bialg_parallel c None g, g)) (fun _ => bialg) fuel 0 g.
Lemma exec_bialg_run : forall f g n g', exec_bialg f g = Some (n, g') -> run bialg_simp g (Ok (n, g')).
Proof. intros. eapply simp_exec_run; [|eassumption]. intros; apply Permutation_refl. Qed.
Definition exec_pf fuel g := match exec_spider fuel g with Some (i, g) => match exec_bialg fuel g with Some (j, g) => Some (i + j, g) | None => None end | None => None end.
Lemma exec_pf_run : forall f g n g', exec_pf f g = Some (n, g') -> run phase_free_simp g (Ok (n, g')).
Proof.
  intros f g n g' H. unfold exec_pf in H. destruct (exec_spider f g) as [[i g1]|] eqn:E1; [|discriminate]. destruct (exec_bialg f g1) as [[j g2]|] eqn:E2; [|discriminate].
  injection H as <- <-. right. exists i, g1. split; [apply (exec_spider_run f); auto|]. right. exists j, g2. split; [apply (exec_bialg_run f); auto|reflexivity].
Qed.
Definition plainb (g : graph) : bool := forallb (fun u => forallb (fun w => match edge_type g u w with Some HADAMARD => negb (vtype_eqb (vty g u) ZSP && vtype_eqb (vty g w) XSP) | _ => true end) (neighbors g u)) (vertices g).
Lemma plainb_ok : forall g, plainb g = true -> plain g.
Proof.
  intros g H u w e E Tu Tw. unfold plainb in H. rewrite forallb_forall in H. assert (Hu := edge_in_l _ _ _ _ E). specialize (H u Hu). rewrite forallb_forall in H.
  assert (Hw : In w (neighbors g u)) by (apply neighbors_spec; congruence). specialize (H w Hw). rewrite E, Tu, Tw in H. destruct e; auto. discriminate.
Qed.

(** the factor: a Z spider joined to an X spider by a plain wire *)
Definition ex_pair : graph := mkgraph [(ZSP, 0%Qc); (XSP, 0%Qc)] [(0,1,SIMPLE)] [] [].
Lemma ex_pair_sem : forall b, sem ex_pair b = sq2p 1.
Proof.
  intros b. transitivity (sq2p (-1) * (C1 + C1))%C.
  - unfold sem. replace (internal ex_pair) with [0;1] by reflexivity. unfold_sem. change {| this := 0; canon := Qred_involutive 0 |} with 0%Qc. rewrite ?cexp_0.
    unfold to_number. simpl. rewrite ?cexp_0, ?sq2p_0. ring.
  - rewrite <- sq2p_2, <- !sq2p_add. reflexivity.
Qed.
Theorem bialg_scalar_fails : exists g n g', zinv g /\ plain g /\ allph quarter g /\ run bialg_simp g (Ok (n, g')) /\ run phase_free_simp g (Ok (n, g')) /\ forall b, sem g' b <> sem g b.
Proof.
  assert (E : exists g', exec_bialg 5 ex_pair = Some (1, g') /\ exec_pf 5 ex_pair = Some (1, g') /\ vertices g' = [] /\ to_number (gscalar g') = C1).
  { eexists. split; [vm_compute; reflexivity|]. split; [vm_compute; reflexivity|]. split; [reflexivity|]. unfold to_number. simpl. rewrite ?cexp_0, ?sq2p_0. 
    change {| this := 0; canon := Qred_involutive 0 |} with 0%Qc. rewrite ?cexp_0. change (R1, R0) with C1. ring. }
  destruct E as [g' [E [E' [V S]]]]. exists ex_pair, 1, g'. split; [apply zinvb_ok; vm_compute; reflexivity|].
  split; [apply plainb_ok; vm_compute; reflexivity|]. split; [apply allqb_ok; vm_compute; reflexivity|]. split; [apply (exec_bialg_run 5); exact E|]. split; [apply (exec_pf_run 5); exact E'|].
  intros b. rewrite ex_pair_sem, sem_nil, S by auto. intros H. rewrite sq2p_1 in H. apply (f_equal fst) in H. unfold sq2, C1, RtoC in H. simpl in H.
  assert (1 < sqrt 2)%R by (rewrite <- sqrt_1 at 1; apply sqrt_lt_1; lra). lra.
Qed.
(** a Hadamard wire: the state |+> becomes |0> *)
Definition ex_hpair : graph := mkgraph [(ZSP, 0%Qc); (XSP, 0%Qc); (XSP, 0%Qc); (BOUNDARY, 0%Qc)] [(0,1,HADAMARD); (0,2,SIMPLE); (2,3,SIMPLE)] [] [3].
Lemma ex_hpair_sem : sem ex_hpair all1 <> C0.
Proof.
  assert (E : sem ex_hpair all1 = ((C1 + C1) * sq2p (-1) * sq2p (-1))%C).
  { unfold sem. replace (internal ex_hpair) with [0;1;2] by reflexivity. unfold_sem. change {| this := 0; canon := Qred_involutive 0 |} with 0%Qc. rewrite ?cexp_0.
    unfold to_number. simpl. rewrite ?cexp_0, ?sq2p_0. ring. }
  rewrite E, <- sq2p_2, <- !sq2p_add. apply sq2p_neq0.
Qed.
Theorem bialg_hadamard_fails : exists g n g', zinv g /\ allph quarter g /\ run bialg_simp g (Ok (n, g')) /\ run phase_free_simp g (Ok (n, g')) /\ ~ same_upto g g'.
Proof.
  assert (E : exists g', exec_bialg 5 ex_hpair = Some (1, g') /\ exec_pf 5 ex_hpair = Some (1, g') /\ sem g' all1 = C0).
  { eexists. split; [vm_compute; reflexivity|]. split; [vm_compute; reflexivity|]. unfold sem, internal. cbn [vertices gty gscalar dkeys map fst filter vty isB dget Nat.eqb]. unfold_sem.
    change {| this := 0; canon := Qred_involutive 0 |} with 0%Qc. rewrite ?cexp_0. ring. }
  destruct E as [g' [E [E' S]]]. exists ex_hpair, 1, g'. split; [apply zinvb_ok; vm_compute; reflexivity|]. split; [apply allqb_ok; vm_compute; reflexivity|].
  split; [apply (exec_bialg_run 5); exact E|]. split; [apply (exec_pf_run 5); exact E'|]. intros [_ [_ [k [Hk H]]]]. specialize (H all1). rewrite S in H.
  symmetry in H. revert H. apply Cmult_neq0; auto. apply ex_hpair_sem.
Qed.
