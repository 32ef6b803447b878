(** What simplify.tcount returns, and that the simplifiers do not increase it. *)
From Coq Require Import Reals ZArith QArith Qcanon List Bool Arith Lia Permutation.
From Verif Require Import LinModel LinProofs CNum Base ScalarModel ScalarProofs GraphModel GraphSem GraphProofs
  RulesModel RuleLemmas SimpModel SimpProofs InvProofs TotalProofs GrowTotal FullTotal TCount TCountRules SuppProofs SuppFacts GraphAlgFacts SimuModel.
Import ListNotations.
Open Scope nat_scope.

Lemma tcount_fold : forall g l c, wfg g -> incl l (vertices g) ->
  foldM (fun c v => let* p := of_opt KeyError (dget v (gphase g)) in
                    Ok (if negb (qeqb p 0%Qc) && Z.ltb 2 (ScalarModel.qden p) then c + 1 else c)) l c = Ok (c + length (filter (nc g) l)).
Proof.
  intros g l. induction l as [|v l IH]; intros c W I; [cbn; f_equal; lia|]. cbn [foldM filter]. rewrite (dget_phase g v W (I v (or_introl eq_refl))). cbn [of_opt bind].
  rewrite IH by (auto; intros u Hu; apply I; right; auto). unfold nc at 2, non_clifford. destruct (negb _ && _); cbn [length]; f_equal; lia.
Qed.
Theorem tcount_ok : forall g, wfg g -> tcount_r g = Ok (tnum g).
Proof. intros g W. unfold tcount_r. rewrite tcount_fold; auto. intros v H; exact H. Qed.
(** the number of spiders whose phase is no multiple of pi/2 *)
Theorem tcount_counts : forall g l, wfg g -> NoDup l -> (forall v, In v l <-> In v (vertices g) /\ ~ exists z, phase g v = frac z 2) -> tcount_r g = Ok (length l).
Proof.
  intros g l W N H. rewrite tcount_ok by auto. f_equal. unfold tnum. apply Permutation_length, NoDup_Permutation; auto.
  - apply NoDup_filter, wf_nd; auto.
  - intros v. rewrite filter_In, H. unfold nc. rewrite nc_true. reflexivity.
Qed.
(** every execution returns, and the T-count of the result is a number that is not larger *)
Definition lowers {A} (I : graph -> Prop) (p : proc A) : Prop := forall g n r, I g -> tcount_r g = Ok n -> run p g r ->
  exists a g' m, r = Ok (a, g') /\ tcount_r g' = Ok m /\ m <= n.
Lemma lowers_of : forall A (I : graph -> Prop) (p : proc A), (forall g, I g -> zinv g) -> (forall g r, I g -> run p g r -> exists a g', r = Ok (a, g') /\ wfg g') -> mono I p -> lowers I p.
Proof.
  intros A I p HI T M g n r Ig E R. destruct (T g r Ig R) as [a [g' [-> W]]]. exists a, g', (tnum g'). split; auto. split; [apply tcount_ok; auto|].
  rewrite tcount_ok in E by apply (zi_zx g (HI g Ig)). injection E as <-. eapply M; eauto.
Qed.
Theorem basic_lowers : forall md, lowers zinv (spider_simp md) /\ lowers zinv (id_simp md) /\ lowers zinv (lcomp_simp md) /\ lowers zinv (pivot_simp md) /\ lowers zinv (interior_clifford_simp md).
Proof.
  intros md. repeat split; apply lowers_of; auto.
  1: intros g r Z R; destruct (spider_simp_tot md g r Z R) as [a [g' [-> [K _]]]]. 3: intros g r Z R; destruct (id_simp_tot md g r Z R) as [a [g' [-> [K _]]]].
  5: intros g r Z R; destruct (lcomp_simp_tot md g r Z R) as [a [g' [-> [K _]]]]. 7: intros g r Z R; destruct (pivot_simp_tot md g r Z R) as [a [g' [-> [K _]]]].
  9: intros g r Z R; destruct (interior_clifford_totr md g r Z R) as [a [g' [-> [[K _] _]]]].
  1,3,5,7,9: exists a, g'; split; auto; apply (zi_zx g' K).
  - apply spider_simp_mono. - apply id_simp_mono. - apply lcomp_simp_mono. - apply pivot_simp_mono. - apply interior_clifford_mono.
Qed.
Theorem grow_lowers : forall md, lowers zg (pivot_gadget_simp md) /\ lowers zg (pivot_boundary_simp md) /\ lowers zgp (gadget_simp md).
Proof.
  intros md. repeat split; apply lowers_of; try (intros g Z; apply Z).
  - intros g r Z R. destruct (pivot_gadget_simp_totr md g r Z R) as [a [g' [-> [K _]]]]. exists a, g'. split; auto. apply (zi_zx g' (proj1 K)).
  - apply pivot_gadget_simp_mono.
  - intros g r Z R. destruct (pivot_boundary_simp_totr md g r Z R) as [a [g' [-> [K _]]]]. exists a, g'. split; auto. apply (zi_zx g' (proj1 K)).
  - apply pivot_boundary_simp_mono.
  - intros g r Z R. destruct (gadget_simp_totr md g r Z R) as [a [g' [-> [K _]]]]. exists a, g'. split; auto. apply (zi_zx g' (proj1 K)).
  - apply gadget_simp_mono.
Qed.
Theorem supp_lowers : lowers sdom supplementarity_simp.
Proof.
  apply lowers_of; try (intros g Z; apply Z); [|apply supp_simp_mono]. intros g r Z R. destruct (supp_simp_ok g Z) as [_ [_ S]]. destruct (S r R) as [a [g' [-> [K _]]]]. exists a, g'. split; auto. apply (zi_zx g' (proj1 K)).
Qed.
Theorem reduce_lowers : lowers zinv (clifford_simp AllC) /\ lowers zinv (full_reduce AllC).
Proof.
  split; apply lowers_of; auto.
  - intros g r Z R. destruct (clifford_simp_totr g r Z R) as [a [g' [-> [K _]]]]. exists a, g'. split; auto. apply (zi_zx g' (proj1 K)).
  - apply clifford_simp_mono.
  - intros g r Z R. destruct (full_reduce_totr g r Z R) as [a [g' [-> [K _]]]]. exists a, g'. split; auto. apply (zi_zx g' (proj1 K)).
  - apply full_reduce_mono.
Qed.
