(** Vocabulary of the property theorems about rewriting, and the assembled
    statements: what "same value" means, which diagrams are considered, and
    checkers that let concrete diagrams be shown to be among them. *)
From Coq Require Import Reals ZArith QArith Qcanon List Bool Arith Lia Permutation.
From Verif Require Import CNum Base ScalarModel ScalarProofs GraphModel GraphSem SumLemmas GraphProofs GraphOps StoreProofs
  RulesModel RuleLemmas SpiderProofs IsoProofs IdProofs LcompProofs PivotProofs GrowProofs PivotMatch GadgetProofs
  SimpModel ColorProofs SimpProofs PairProofs RuleShape TermProofs InvProofs RoundProofs BfixProofs TotalProofs Decide RunEx.
Import ListNotations.
Open Scope nat_scope.

(** Same interface, and values that differ at most by one fixed non-zero factor. *)
Definition same_upto (g g' : graph) : Prop :=
  ginputs g' = ginputs g /\ goutputs g' = goutputs g /\
  exists k, k <> C0 /\ forall b, sem g' b = (k * sem g b)%C.
(** What every simplifier guarantees: the map is kept up to a non-zero factor,
    and exactly (scalar included) when all phases are multiples of pi/4. *)
Definition map_kept (g g' : graph) : Prop :=
  same_upto g g' /\ (allph quarter g -> same_map g g').

Lemma same_upto_refl : forall g, same_upto g g.
Proof. intros g. split; auto. split; auto. exists C1. split; [exact C1_neq_C0|]. intros; ring. Qed.

Lemma kept_of_steps : forall g g', step_k nonzero g g' -> (allph quarter g -> step_k (eq C1) g g') -> zxok g' /\ map_kept g g'.
Proof.
  intros g g' [Z [I [O [k [K S]]]]] H. split; auto. split.
  - split; auto. split; auto. exists k. auto.
  - intros Q. destruct (H Q) as [_ [_ [_ [k1 [<- S1]]]]]. split; auto. split; auto. intros b. rewrite S1. ring.
Qed.
Lemma kept_of_sound : forall A (p : proc A),
  (forall K P, good K P -> forall g a g', zxi P g -> run p g (Ok (a, g')) -> step_k K g g') ->
  forall g a g', zxok g -> run p g (Ok (a, g')) -> zxok g' /\ map_kept g g'.
Proof.
  intros A p H g a g' Z R. apply kept_of_steps.
  - apply (H nonzero anyph good_nonzero g a g'); auto. split; auto. intros v _; exact I.
  - intros Q. apply (H (eq C1) quarter good_quarter g a g'); auto. split; auto.
Qed.

(** ** Progress: a procedure that must stop has a result *)
Definition live {A} (p : proc A) : Prop := forall g, halts p g -> exists r, run p g r.
Lemma live_ret : forall A (a : A), live (pret a).
Proof. intros A a g _. eexists. reflexivity. Qed.
Lemma live_do : forall A (f : graph -> res (A * graph)), live (pdo f).
Proof. intros A f g _. eexists. reflexivity. Qed.
Lemma live_bind : forall A B (p : proc A) (k : A -> proc B), live p -> (forall a, live (k a)) -> live (pbind p k).
Proof.
  intros A B p k Lp Lk g [H1 H2]. destruct (Lp g H1) as [[[a g1]|e] R].
  - destruct (Lk a g1 (H2 a g1 R)) as [r R2]. exists r. right. eauto.
  - exists (Err e). left. eauto.
Qed.
Lemma live_choose : forall Ch A (okc : graph -> Ch -> Prop) (f : Ch -> graph -> res (A * graph)),
  (forall g, exists c, okc g c) -> live (pchoose okc f).
Proof. intros Ch A okc f H g _. destruct (H g) as [c Hc]. exists (f c g), c. auto. Qed.
Lemma live_loop : forall A (body : A -> proc (A * bool)), (forall a, live (body a)) -> forall a, live (ploop body a).
Proof.
  intros A body HB a g H. simpl in H. simpl. induction H as [a g H1 H2 IH].
  destruct (HB a g H1) as [[[[a1 b] g1]|e] R].
  - destruct b; [destruct (IH a1 g1 R) as [r L]; exists r; eapply LR_go; eauto|exists (Ok (a1, g1)); apply LR_stop; auto].
  - exists (Err e). apply LR_err. auto.
Qed.
Lemma live_simp : forall Ch M (okc : graph -> Ch -> Prop) (mt : Ch -> graph -> res (list M * graph)) rw,
  (forall g, exists c, okc g c) -> live (simp okc mt rw).
Proof. intros. apply live_loop. intros i. apply live_bind; [apply live_choose; auto|intros; apply live_ret]. Qed.
Lemma cand_all : forall A md (l : list A), NoDup l \/ md = AllC -> cand_ok md l l.
Proof. intros A [] l H; simpl; [apply Permutation_refl|]. destruct H; [|discriminate]. split; [auto|apply incl_refl]. Qed.
Lemma cand_ex : forall A md (l : list A), exists c, cand_ok md l c.
Proof. intros A [] l; [exists l; apply Permutation_refl|exists []; split; [constructor|intros x []]]. Qed.
Lemma cand_ex_so : forall A md (l : list A), exists c : list A * (list nat -> list nat), cand_ok md l (fst c) /\ set_order (snd c).
Proof. intros A md l. destruct (cand_ex A md l) as [c H]. exists (c, id_so). split; auto. exact id_so_ok. Qed.
Lemma spider_live : forall md, live (spider_simp md).
Proof. intros. apply live_simp. intros g. apply (cand_ex _ md (edges g)). Qed.
Lemma id_live : forall md, live (id_simp md).
Proof. intros. apply live_simp. intros g. apply (cand_ex _ md (vertices g)). Qed.
Lemma lcomp_live : forall md, live (lcomp_simp md).
Proof. intros. apply live_simp. intros g. apply (cand_ex _ md (vertices g)). Qed.
Lemma pivot_live : forall md, live (pivot_simp md).
Proof. intros. apply live_simp. intros g. apply (cand_ex_so _ md (edges g)). Qed.
Lemma interior_clifford_live : forall md, live (interior_clifford_simp md).
Proof.
  intros. apply live_bind; [apply spider_live|intros _]. apply live_bind; [apply live_do|intros _]. apply live_loop. intros i.
  apply live_bind; [apply id_live|intros i1]. apply live_bind; [apply spider_live|intros i2].
  apply live_bind; [apply pivot_live|intros i3]. apply live_bind; [apply lcomp_live|intros i4].
  destruct (Nat.eqb _ 0); apply live_ret.
Qed.

(** ** Assembled statements *)
(** On every diagram meeting I, under every schedule: the procedure stops, has
    a result, and every result is a normal return of a diagram of the same
    kind, denoting the same map. *)
Definition simp_correct (p : proc nat) (I : graph -> Prop) : Prop :=
  forall g, I g -> halts p g /\ (exists r, run p g r) /\
    forall r, run p g r -> exists n g', r = Ok (n, g') /\ zinv g' /\ map_kept g g'.

Lemma simp_correct_intro : forall p, live p -> (forall g, zxok g -> halts p g) -> tot zinv p (fun _ _ g' => zinv g') ->
  (forall g a g', zxok g -> run p g (Ok (a, g')) -> zxok g' /\ map_kept g g') -> simp_correct p zinv.
Proof.
  intros p L H T S g HI. assert (HP : halts p g) by (apply H; apply HI). split; auto. split; [apply L; auto|]. intros r R. destruct (T g r HI R) as [n [g' [-> J]]].
  exists n, g'. split; auto. split; auto. apply (S g n g'); auto. apply HI.
Qed.
Lemma tot_keepb : forall p, tot zinv p (fun g (_ : nat) g' => keepb g g') -> tot zinv p (fun _ _ g' => zinv g').
Proof. intros p T g r HI R. destruct (T g r HI R) as [n [g' [-> J]]]. exists n, g'. split; auto. apply J. Qed.

Section Kept.
  Variable md : mode.
  Lemma spider_kept : forall g a g', zxok g -> run (spider_simp md) g (Ok (a, g')) -> zxok g' /\ map_kept g g'.
  Proof. apply kept_of_sound. intros K P G g a g' Z R. apply (spider_simp_sound K P G md g a g' Z R). Qed.
  Lemma id_kept : forall g a g', zxok g -> run (id_simp md) g (Ok (a, g')) -> zxok g' /\ map_kept g g'.
  Proof. apply kept_of_sound. intros K P G g a g' Z R. apply (id_simp_sound K P G md g a g' Z R). Qed.
  Lemma lcomp_kept : forall g a g', zxok g -> run (lcomp_simp md) g (Ok (a, g')) -> zxok g' /\ map_kept g g'.
  Proof. apply kept_of_sound. intros K P G g a g' Z R. apply (lcomp_simp_sound K P G md g a g' Z R). Qed.
  Lemma pivot_kept : forall g a g', zxok g -> run (pivot_simp md) g (Ok (a, g')) -> zxok g' /\ map_kept g g'.
  Proof. apply kept_of_sound. intros K P G g a g' Z R. apply (pivot_simp_sound K P G md g a g' Z R). Qed.
  Lemma interior_clifford_kept : forall g a g', zxok g -> run (interior_clifford_simp md) g (Ok (a, g')) -> zxok g' /\ map_kept g g'.
  Proof. apply kept_of_sound. intros K P G g a g' Z R. apply (interior_clifford_sound K P G md g a g' Z R). Qed.

  Lemma spider_correct : simp_correct (spider_simp md) zinv.
  Proof. apply simp_correct_intro; [apply spider_live|apply spider_simp_halts|apply tot_keepb, spider_simp_tot|apply spider_kept]. Qed.
  Lemma id_correct : simp_correct (id_simp md) zinv.
  Proof. apply simp_correct_intro; [apply id_live|apply id_simp_halts|apply tot_keepb, id_simp_tot|apply id_kept]. Qed.
  Lemma lcomp_correct : simp_correct (lcomp_simp md) zinv.
  Proof. apply simp_correct_intro; [apply lcomp_live|apply lcomp_simp_halts|apply tot_keepb, lcomp_simp_tot|apply lcomp_kept]. Qed.
  Lemma pivot_correct : simp_correct (pivot_simp md) zinv.
  Proof. apply simp_correct_intro; [apply pivot_live|apply pivot_simp_halts|apply tot_keepb, pivot_simp_tot|apply pivot_kept]. Qed.
  Lemma interior_clifford_correct : simp_correct (interior_clifford_simp md) zinv.
  Proof.
    apply simp_correct_intro; [apply interior_clifford_live|apply interior_clifford_halts| |apply interior_clifford_kept].
    intros g r HI R. destruct (interior_clifford_tot md g r HI R) as [n [g' [-> J]]]. exists n, g'. split; auto. apply J.
  Qed.
End Kept.

(** ** Checkers for concrete diagrams *)
Definition bdegb (g : graph) : bool := forallb (fun b => negb (isB g b) || Nat.eqb (length (neighbors g b)) 1) (vertices g).
Lemma bdegb_ok : forall g, bdegb g = true -> bdeg g.
Proof.
  intros g H b Hb T. unfold bdegb in H. rewrite forallb_forall in H. specialize (H b Hb). unfold isB in H. rewrite T in H. cbn in H.
  apply Nat.eqb_eq in H. destruct (neighbors g b) as [|u [|]] eqn:E; try discriminate. exists u. intros w.
  rewrite <- neighbors_spec, E. simpl. split; [intros [->|[]]; auto|auto].
Qed.
Definition zinvb (g : graph) : bool :=
  zxokb g && bdegb g && forallb (fun b => negb (isB g b) || qeqb (phase g b) 0%Qc) (vertices g)
  && forallb (fun v => match dget v (grindex g) with Some _ => true | None => false end) (vertices g)
  && forallb (fun b => negb (isB g b) || nmem b (ginputs g) || nmem b (goutputs g)) (vertices g).
Lemma zinvb_ok : forall g, zinvb g = true -> zinv g.
Proof.
  intros g H. unfold zinvb in H. rewrite !andb_true_iff, !forallb_forall in H. destruct H as [[[[H1 H2] H3] H4] H5].
  constructor; [apply zxokb_ok; auto|apply bdegb_ok; auto| | |].
  - intros b Hb T. specialize (H3 b Hb). unfold isB in H3. rewrite T in H3. apply qeqb_eq. exact H3.
  - intros v Hv E. specialize (H4 v Hv). rewrite E in H4. discriminate.
  - intros b Hb T. specialize (H5 b Hb). unfold isB in H5. rewrite T in H5. cbn in H5. apply orb_true_iff in H5.
    destruct H5 as [H5|H5]; [left|right]; apply nmem_spec; auto.
Qed.

(** ** Example diagrams *)
(** input - Z(1/4) - Z(1/2) - X(1) - output, with an extra wire: spiders to fuse *)
Definition ex_spiders : graph := mkgraph
  [(BOUNDARY, 0%Qc); (ZSP, frac 1 4); (ZSP, frac 1 2); (XSP, 1%Qc); (XSP, frac 1 3); (BOUNDARY, 0%Qc)]
  [(0,1,SIMPLE); (1,2,SIMPLE); (2,3,HADAMARD); (3,4,SIMPLE); (1,4,HADAMARD); (4,5,SIMPLE)] [0] [5].
Definition ex_ids : graph := mkgraph
  [(BOUNDARY, 0%Qc); (ZSP, 0%Qc); (ZSP, frac 1 2); (XSP, 0%Qc); (ZSP, 0%Qc); (BOUNDARY, 0%Qc)]
  [(0,1,SIMPLE); (1,2,HADAMARD); (2,3,SIMPLE); (3,4,HADAMARD); (4,5,SIMPLE); (2,4,SIMPLE)] [0] [5].
(** a graph-like diagram with interior Clifford spiders of phase 1/2 and Pauli pairs *)
Definition ex_lc : graph := mkgraph
  [(BOUNDARY, 0%Qc); (ZSP, frac 1 4); (ZSP, frac 1 2); (ZSP, frac 3 4); (BOUNDARY, 0%Qc); (ZSP, frac 1 3)]
  [(0,1,SIMPLE); (1,2,HADAMARD); (2,3,HADAMARD); (3,4,SIMPLE); (2,5,HADAMARD); (5,1,HADAMARD)] [0] [4].
Definition ex_pv : graph := mkgraph
  [(BOUNDARY, 0%Qc); (ZSP, frac 1 4); (ZSP, 1%Qc); (ZSP, 0%Qc); (ZSP, frac 3 4); (BOUNDARY, 0%Qc); (ZSP, frac 1 3)]
  [(0,1,SIMPLE); (1,2,HADAMARD); (2,3,HADAMARD); (3,4,HADAMARD); (4,5,SIMPLE); (2,6,HADAMARD); (3,6,HADAMARD)] [0] [5].
Definition rounds (o : option (nat * graph)) : option nat := option_map fst o.
Lemma exec_witness : forall p g o n, (forall m g', o = Some (m, g') -> run p g (Ok (m, g'))) -> rounds o = Some n ->
  exists g', run p g (Ok (n, g')).
Proof. intros p g o n H E. destruct o as [[m g']|]; [|discriminate]. injection E as <-. eauto. Qed.
