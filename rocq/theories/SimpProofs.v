(** Soundness of the simplification loops of simplify.py: combinators, and the
    simplifiers whose only invariant is [zxok]. *)
From Coq Require Import Reals ZArith QArith Qcanon List Bool Arith Lia Permutation.
From Verif Require Import CNum Base ScalarModel ScalarProofs GraphModel GraphSem SumLemmas GraphProofs GraphOps
  RulesModel RuleLemmas SpiderProofs IsoProofs IdProofs LcompProofs PivotProofs GrowProofs PivotMatch GadgetProofs
  SimpModel ColorProofs.
Import ListNotations.
Open Scope nat_scope.

(** partial correctness: every execution that returns meets the postcondition *)
Definition psound {A} (Pre : graph -> Prop) (p : proc A) (Post : graph -> A -> graph -> Prop) : Prop :=
  forall g a g', Pre g -> run p g (Ok (a, g')) -> Post g a g'.

Lemma psound_bind : forall A B (Pre : graph -> Prop) (p : proc A) (Mid : graph -> A -> graph -> Prop) (k : A -> proc B) Post,
  psound Pre p Mid ->
  (forall g a, psound (fun g1 => Pre g /\ Mid g a g1) (k a) (fun _ b g2 => Post g b g2)) ->
  psound Pre (pbind p k) Post.
Proof.
  intros A B Pre p Mid k Post Hp Hk g b g' HI [[e [_ E]]|[a [g1 [R1 R2]]]]; [discriminate|].
  apply (Hk g a g1 b g'); auto.
Qed.
Lemma psound_ret : forall A Pre (a : A), psound Pre (pret a) (fun g b g' => g' = g /\ b = a).
Proof. intros A Pre a g b g' _ E. injection E as -> ->. auto. Qed.

Lemma psound_loop : forall A (body : A -> proc (A * bool)) (Inv : graph -> A -> graph -> Prop) (Post : graph -> A -> graph -> Prop),
  (forall g0 a g a' g', Inv g0 a g -> run (body a) g (Ok ((a', true), g')) -> Inv g0 a' g') ->
  (forall g0 a g a' g', Inv g0 a g -> run (body a) g (Ok ((a', false), g')) -> Post g0 a' g') ->
  forall a, psound (fun g => Inv g a g) (ploop body a) Post.
Proof.
  intros A body Inv Post HG HS a g b g' HI R. simpl in R.
  assert (X : forall a g1 r, loop_run body a g1 r -> forall b g', r = Ok (b, g') -> Inv g a g1 -> Post g b g').
  { clear - HG HS. induction 1 as [a g1 e R|a g1 a' g' R|a g1 a1 g2 r R L IH]; intros b' g'' E HI.
    - discriminate.
    - injection E as <- <-. eapply HS; eauto.
    - apply IH; auto. eapply HG; eauto. }
  eapply X; eauto.
Qed.

(** one iteration of [simp] keeps I and moves along R; so does the loop *)
Section Simp.
  Context {Ch M : Type} (okc : graph -> Ch -> Prop) (mt : Ch -> graph -> res (list M * graph)) (rw : Ch -> list M -> graph -> res rwout).
  Variables (I : graph -> Prop) (R : graph -> graph -> Prop).
  Hypothesis Rrefl : forall g, I g -> R g g.
  Hypothesis Rtrans : forall a b c, R a b -> R b c -> R a c.
  Hypothesis once : forall c g b g', I g -> okc g c -> simp_once (mt c) (rw c) g = Ok (b, g') -> R g g' /\ I g'.

  Lemma simp_body : forall i g i' b g', I g ->
    run (do b <- pchoose okc (fun c => simp_once (mt c) (rw c)) ;; pret (if b then i + 1 else i, b)) g (Ok ((i', b), g')) ->
    R g g' /\ I g' /\ (if b then i' = i + 1 else i' = i) /\ exists c, okc g c /\ simp_once (mt c) (rw c) g = Ok (b, g').
  Proof.
    intros i g i' b g' HI [[e [_ E]]|[b1 [g1 [[c [Oc E]] R2]]]]; [discriminate|].
    injection R2 as Ei Eb Eg. subst b1 g1 i'. destruct (once c g b g' HI Oc (eq_sym E)). split; auto. split; auto. split; [destruct b; auto|].
    exists c. auto.
  Qed.

  Lemma simp_sound : psound I (simp okc mt rw) (fun g _ g' => R g g' /\ I g').
  Proof.
    intros g a g' HI. apply (psound_loop _ _ (fun g0 _ g => R g0 g /\ I g) (fun g _ g' => R g g' /\ I g')).
    - intros g0 i g1 i' g2 [H1 H2] B. apply simp_body in B; auto. destruct B as [B1 [B2 _]]. split; eauto.
    - intros g0 i g1 i' g2 [H1 H2] B. apply simp_body in B; auto. destruct B as [B1 [B2 _]]. split; eauto.
    - split; auto.
  Qed.
End Simp.

Lemma cand_ok_in : forall A md (all c : list A) x, cand_ok md all c -> In x c -> In x all.
Proof. intros A [] all c x H Hx; [eapply Permutation_in; eauto|apply H; auto]. Qed.
Lemma cand_ok_nd : forall A md (all c : list A), cand_ok md all c -> NoDup all -> NoDup c.
Proof. intros A [] all c H ND; [eapply Permutation_NoDup; [apply Permutation_sym; eauto|auto]|apply H]. Qed.

(** the invariant shared by all simplifiers, and the relation they realise *)
Definition zxi (P : Qc -> Prop) (g : graph) : Prop := zxok g /\ allph P g.
Lemma step_k_refl : forall K g, kmon K -> zxok g -> step_k K g g.
Proof. intros K g KM Z. apply step_ok_k; auto. split; auto. split; [|split]; auto. Qed.
Lemma step_k_zx : forall K g g', step_k K g g' -> zxok g'.
Proof. intros K g g' [H _]. exact H. Qed.

(** inversion of one iteration *)
Lemma simp_once_inv : forall M (mt : graph -> res (list M * graph)) rw g b g', simp_once mt rw g = Ok (b, g') ->
  exists ms g1, mt g = Ok (ms, g1) /\
  ((ms = [] /\ b = false /\ g' = g1) \/ (ms <> [] /\ b = true /\ exists o, rw ms g1 = Ok o /\ apply_rw o = Ok g')).
Proof.
  intros M mt rw g b g' H. unfold simp_once in H. inv_bind H. destruct a as [ms g1]. exists ms, g1. split; auto.
  destruct ms as [|m ms].
  - injection H as <- <-. left; auto.
  - inv_bind H. inv_bind H. injection H as <- <-. right. split; [discriminate|]. split; auto. eauto.
Qed.

Section Zx.
  Variables (K : C -> Prop) (P : Qc -> Prop).
  Hypothesis GD : good K P.
  Let KM : kmon K := proj1 GD.

  Ltac simp_zx := match goal with |- forall md, _ => intros md end; refine (simp_sound _ _ _ (zxi P) (step_k K) _ _ _ );
    [intros ? [? ?]; apply step_k_refl; auto| intros ? ? ?; apply step_k_trans; apply KM |].

  Lemma zxi_done : forall g g', step_k K g g' /\ allph P g' -> step_k K g g' /\ zxi P g'.
  Proof. intros g g' [H1 H2]. split; auto. split; auto. eapply step_k_zx; eauto. Qed.

  Theorem spider_simp_sound : forall md, psound (zxi P) (spider_simp md) (fun g _ g' => step_k K g g' /\ zxi P g').
  Proof.
    simp_zx. intros c g b g' [Z AP] Oc H. apply simp_once_inv in H. destruct H as [ms [g1 [E H]]]. injection E as <- <-.
    destruct H as [[E [-> ->]]|[NE [-> [o [E1 E2]]]]]; [split; [apply step_k_refl; auto|split; auto]|].
    apply zxi_done. apply (spider_step K P g c None o g'); auto. intros e He. exact (cand_ok_in _ _ _ _ _ Oc He).
  Qed.
  Theorem id_simp_sound : forall md, psound (zxi P) (id_simp md) (fun g _ g' => step_k K g g' /\ zxi P g').
  Proof.
    simp_zx. intros c g b g' [Z AP] Oc H. apply simp_once_inv in H. destruct H as [ms [g1 [E H]]]. injection E as <- <-.
    destruct H as [[E [-> ->]]|[NE [-> [o [E1 E2]]]]]; [split; [apply step_k_refl; auto|split; auto]|].
    apply zxi_done. apply (ids_step K P g c None o g'); auto; [intros e He; exact (cand_ok_in _ _ _ _ _ Oc He)|].
    exact (cand_ok_nd _ _ _ _ Oc (wf_nd g (zx_wf g Z))).
  Qed.
  Theorem lcomp_simp_sound : forall md, psound (zxi P) (lcomp_simp md) (fun g _ g' => step_k K g g' /\ zxi P g').
  Proof.
    simp_zx. intros c g b g' [Z AP] Oc H. apply simp_once_inv in H. destruct H as [ms [g1 [E H]]]. injection E as <- <-.
    destruct H as [[E [-> ->]]|[NE [-> [o [E1 E2]]]]]; [split; [apply step_k_refl; auto|split; auto]|].
    apply zxi_done. apply (lcomp_step K P g c None o g'); auto; [intros e He; exact (cand_ok_in _ _ _ _ _ Oc He)|].
    exact (cand_ok_nd _ _ _ _ Oc (wf_nd g (zx_wf g Z))).
  Qed.
  Theorem pivot_simp_sound : forall md, psound (zxi P) (pivot_simp md) (fun g _ g' => step_k K g g' /\ zxi P g').
  Proof.
    simp_zx. intros [c so] g b g' [Z AP] [Oc SO] H. apply simp_once_inv in H. destruct H as [ms [g1 [E H]]]. injection E as <- <-.
    destruct H as [[E [-> ->]]|[NE [-> [o [E1 E2]]]]]; [split; [apply step_k_refl; auto|split; auto]|].
    apply zxi_done. apply (pivot_step so K P g c None o g'); auto. intros e He. exact (cand_ok_in _ _ _ _ _ Oc He).
  Qed.
  Theorem to_gh_psound : psound (zxi P) p_to_gh (fun g _ g' => step_k K g g' /\ zxi P g' /\ forall v, In v (vertices g') -> vty g' v <> XSP).
  Proof.
    intros g a g' [Z AP] H. simpl in H. destruct (to_gh_sound g Z) as [g1 [E [Z1 [SM [NX [VS PH]]]]]].
    rewrite E in H. injection H as -> ->. split; [apply step_ok_k; [apply KM|split; auto]|]. split; [split; auto|auto].
    intros v Hv. unfold phase. rewrite PH. apply AP. congruence.
  Qed.
  (** a uniform way to chain procedures that keep I along R *)
  Definition keeps (A : Type) (I : graph -> Prop) (p : proc A) : Prop :=
    forall g a g', I g -> run p g (Ok (a, g')) -> step_k K g g' /\ I g'.
  Lemma keeps_bind : forall A B (I : graph -> Prop) (p : proc A) (k : A -> proc B), keeps A I p -> (forall a, keeps B I (k a)) -> keeps B I (pbind p k).
  Proof.
    intros A B I p k Hp Hk g b g' HI [[e [_ E]]|[a [g1 [R1 R2]]]]; [discriminate|].
    destruct (Hp _ _ _ HI R1) as [S1 I1]. destruct (Hk a _ _ _ I1 R2) as [S2 I2]. split; auto.
    eapply step_k_trans; [apply KM|exact S1|exact S2].
  Qed.
  Lemma keeps_ret : forall A (I : graph -> Prop) (a : A), (forall g, I g -> zxok g) -> keeps A I (pret a).
  Proof. intros A I a HI g b g' H E. injection E as -> ->. split; auto. apply step_k_refl; auto. Qed.
  Lemma keeps_loop : forall A (I : graph -> Prop) (body : A -> proc (A * bool)), (forall g, I g -> zxok g) -> (forall a, keeps _ I (body a)) -> forall a, keeps A I (ploop body a).
  Proof.
    intros A I body Z HB a g b g' HI R.
    apply (psound_loop A body (fun g0 _ g => step_k K g0 g /\ I g) (fun g0 _ g => step_k K g0 g /\ I g)) with (3 := conj (step_k_refl K g KM (Z _ HI)) HI) (4 := R).
    - intros g0 x g1 x' g2 [S1 I1] R1. destruct (HB _ _ _ _ I1 R1). split; auto. eapply step_k_trans; [apply KM|eauto|auto].
    - intros g0 x g1 x' g2 [S1 I1] R1. destruct (HB _ _ _ _ I1 R1). split; auto. eapply step_k_trans; [apply KM|eauto|auto].
  Qed.
  Theorem interior_clifford_sound : forall md, keeps nat (zxi P) (interior_clifford_simp md).
  Proof.
    intros md. apply keeps_bind; [exact (spider_simp_sound md)|]. intros _.
    apply keeps_bind; [intros g a g' HI R; destruct (to_gh_psound g a g' HI R) as [? [? ?]]; auto|]. intros _.
    apply keeps_loop; [intros g H; apply H|]. intros i.
    apply keeps_bind; [exact (id_simp_sound md)|]. intros i1.
    apply keeps_bind; [exact (spider_simp_sound md)|]. intros i2.
    apply keeps_bind; [exact (pivot_simp_sound md)|]. intros i3.
    apply keeps_bind; [exact (lcomp_simp_sound md)|]. intros i4.
    destruct (Nat.eqb _ 0); apply keeps_ret; intros g H; apply H.
  Qed.
End Zx.
