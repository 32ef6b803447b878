(** Finite sums over bit assignments and products over pairs. *)
From Coq Require Import Reals ZArith QArith Qcanon List Bool Arith Lia Permutation FunctionalExtensionality Ring.
From Verif Require Import CNum Base ScalarModel GraphModel GraphSem.
Import ListNotations.
Open Scope C_scope.

Lemma upd_same : forall x v b, upd x v b v = b.
Proof. intros. unfold upd. rewrite Nat.eqb_refl. reflexivity. Qed.
Lemma upd_other : forall x v b u, u <> v -> upd x v b u = x u.
Proof. intros. unfold upd. apply Nat.eqb_neq in H. rewrite H. reflexivity. Qed.
Lemma upd_comm : forall x u v a b, u <> v -> upd (upd x u a) v b = upd (upd x v b) u a.
Proof.
  intros. extensionality w. unfold upd.
  destruct (Nat.eqb_spec w v), (Nat.eqb_spec w u); subst; congruence.
Qed.
Lemma upd_shadow : forall x v a b, upd (upd x v a) v b = upd x v b.
Proof. intros. extensionality w. unfold upd. destruct (Nat.eqb w v); reflexivity. Qed.
Lemma upd_id : forall x v, upd x v (x v) = x.
Proof. intros. extensionality w. unfold upd. destruct (Nat.eqb_spec w v); congruence. Qed.

Lemma sumv_ext : forall l F F' x, (forall y, F y = F' y) -> sumv l F x = sumv l F' x.
Proof. induction l; simpl; intros; auto. rewrite (IHl F F'), (IHl F F'); auto. Qed.

(** only assignments agreeing with x outside l matter *)
Lemma sumv_ext_on : forall l F F' x,
  (forall y, (forall v, ~ In v l -> y v = x v) -> F y = F' y) -> sumv l F x = sumv l F' x.
Proof.
  induction l as [|a l IH]; simpl; intros.
  - apply H. auto.
  - f_equal; apply IH; intros; apply H; intros; rewrite H0 by tauto; apply upd_other; intro; subst; tauto.
Qed.

Lemma sumv_app : forall l1 l2 F x, sumv (l1 ++ l2) F x = sumv l1 (sumv l2 F) x.
Proof. induction l1; simpl; intros; auto. rewrite !IHl1; auto. Qed.

Lemma sumv_plus : forall l F F' x, sumv l (fun y => F y + F' y) x = sumv l F x + sumv l F' x.
Proof. induction l; simpl; intros; auto. rewrite !IHl. ring. Qed.

Lemma sumv_0 : forall l x, sumv l (fun _ => C0) x = C0.
Proof. induction l; simpl; intros; auto. rewrite !IHl. ring. Qed.

Lemma sumv_mult_indep : forall l K F x,
  (forall y v b, In v l -> K (upd y v b) = K y) ->
  sumv l (fun y => K y * F y) x = K x * sumv l F x.
Proof.
  induction l as [|a l IH]; simpl; intros; auto.
  rewrite !IH by (intros; apply H; auto). rewrite !H by auto. ring.
Qed.
Lemma sumv_scal : forall l c F x, sumv l (fun y => c * F y) x = c * sumv l F x.
Proof. intros. apply (sumv_mult_indep l (fun _ => c)). reflexivity. Qed.

Lemma sumv_upd : forall l F x v b, ~ In v l -> (forall y c, F (upd y v c) = F y) ->
  sumv l F (upd x v b) = sumv l F x.
Proof.
  induction l as [|a l IH]; simpl; intros; auto.
  assert (v <> a) by (intro; subst; tauto).
  rewrite (upd_comm x v a b false), (upd_comm x v a b true) by auto.
  rewrite (IH F (upd x a false)), (IH F (upd x a true)) by (auto; tauto). auto.
Qed.

Lemma sumv_swap_gen : forall a l F x, ~ In a l ->
  sumv l F (upd x a false) + sumv l F (upd x a true)
  = sumv l (fun y => F (upd y a false) + F (upd y a true)) x.
Proof.
  induction l as [|c l IH]; simpl; intros; auto.
  assert (a <> c) by (intro; subst; tauto).
  rewrite !(upd_comm x a c) by auto. rewrite <- !IH by tauto. ring.
Qed.

Lemma sumv_perm : forall l1 l2, Permutation l1 l2 -> NoDup l1 -> forall F x, sumv l1 F x = sumv l2 F x.
Proof.
  induction 1; intros; simpl; auto.
  - inversion H0; subst. rewrite !IHPermutation; auto.
  - inversion H; subst. inversion H3; subst.
    assert (y <> x) by (intro; subst; simpl in *; tauto).
    rewrite !(upd_comm x0 y x) by auto. ring.
  - rewrite IHPermutation1 by auto. apply IHPermutation2. eapply Permutation_NoDup; eauto.
Qed.

(** sums of independent factors *)
Lemma sumv_factor : forall l (f : nat -> bool -> assignment -> C) x, NoDup l ->
  (forall v b y w c, In v l -> In w l -> f v b (upd y w c) = f v b y) ->
  sumv l (fun y => cprod (fun v => f v (y v) y) l) x
  = cprod (fun v => f v false x + f v true x) l.
Proof.
  intros l f x ND Hf.
  assert (forall l', NoDup l' -> incl l' l -> forall y, (forall w, ~ In w l -> y w = x w) ->
     sumv l' (fun y => cprod (fun v => f v (y v) y) l') y = cprod (fun v => f v false y + f v true y) l') as H.
  { induction l' as [|a l' IH]; intros ND' Hi y Hy; simpl; auto.
    inversion ND'; subst.
    assert (Hia : In a l) by (apply Hi; simpl; auto).
    assert (forall b, sumv l' (fun y0 => f a (y0 a) y0 * cprod (fun v => f v (y0 v) y0) l') (upd y a b)
              = f a b y * cprod (fun v => f v false y + f v true y) l') as E.
    { intros b. rewrite (sumv_ext_on l' _ (fun y0 => f a b y0 * cprod (fun v => f v (y0 v) y0) l')).
      2:{ intros z Hz. rewrite Hz by auto. rewrite upd_same. reflexivity. }
      rewrite (sumv_mult_indep l' (fun z => f a b z)).
      2:{ intros. apply Hf; auto. apply Hi; simpl; auto. }
      rewrite Hf by auto. f_equal. rewrite IH; auto.
      - apply cprod_ext. intros v Hv. rewrite !Hf; auto; apply Hi; simpl; auto.
      - intros v Hv. apply Hi; simpl; auto.
      - intros w Hw. rewrite upd_other; auto. intro; subst; auto. }
    rewrite !E. ring. }
  apply H; auto. apply incl_refl.
Qed.

(** ** products over pairs *)
Lemma pprod_ext : forall l f f', (forall u v, In u l -> In v l -> f u v = f' u v) -> pprod f l = pprod f' l.
Proof.
  induction l; simpl; intros; auto. f_equal.
  - apply cprod_ext. intros. apply H; auto.
  - apply IHl. intros; apply H; auto.
Qed.
Lemma pprod_ext_nd : forall l f f', NoDup l -> (forall u v, In u l -> In v l -> u <> v -> f u v = f' u v) -> pprod f l = pprod f' l.
Proof.
  induction l; simpl; intros; auto. inversion H; subst. f_equal.
  - apply cprod_ext. intros. apply H0; auto. intro; subst; auto.
  - apply IHl; auto.
Qed.
Lemma pprod_perm : forall f l1 l2, (forall u v, f u v = f v u) -> Permutation l1 l2 -> pprod f l1 = pprod f l2.
Proof.
  intros f l1 l2 Hs HP. induction HP; simpl; auto.
  - rewrite IHHP. f_equal. apply cprod_perm; auto.
  - rewrite (Hs y x). ring.
  - congruence.
Qed.
Lemma pprod_app : forall f l1 l2,
  pprod f (l1 ++ l2) = pprod f l1 * cprod (fun u => cprod (f u) l2) l1 * pprod f l2.
Proof.
  induction l1; simpl; intros; [ring|]. rewrite IHl1, cprod_app. ring.
Qed.
Lemma pprod_mult : forall f h l, pprod (fun u v => f u v * h u v) l = pprod f l * pprod h l.
Proof.
  induction l; simpl; [ring|]. rewrite IHl. rewrite (cprod_mult _ (f a) (h a)). ring.
Qed.
Lemma pprod_1 : forall f l, (forall u v, In u l -> In v l -> f u v = C1) -> pprod f l = C1.
Proof.
  induction l; simpl; intros; auto. rewrite IHl by (intros; apply H; auto).
  rewrite cprod_1; [ring|]. intros; apply H; auto.
Qed.
Lemma pprod_1_nd : forall f l, NoDup l -> (forall u v, In u l -> In v l -> u <> v -> f u v = C1) -> pprod f l = C1.
Proof.
  intros. rewrite (pprod_ext_nd l f (fun _ _ => C1)); auto. apply pprod_1; auto.
Qed.

(** bring an element to the front *)
Lemma in_perm_front : forall (v : nat) l, In v l -> exists l', Permutation l (v :: l').
Proof.
  intros. apply in_split in H. destruct H as [l1 [l2 ->]]. exists (l1 ++ l2).
  symmetry. apply Permutation_middle.
Qed.

Lemma cprod_change1 : forall (f f' : nat -> C) l s, NoDup l -> In s l ->
  (forall u, In u l -> u <> s -> f' u = f u) ->
  exists R, cprod f l = R * f s /\ cprod f' l = R * f' s.
Proof.
  intros. destruct (in_perm_front s l H0) as [l' HP].
  exists (cprod f l'). rewrite !(cprod_perm _ _ _ _ HP). simpl. split; [ring|].
  rewrite (cprod_ext _ f' f l'); [ring|].
  intros. pose proof (Permutation_NoDup HP H) as ND. inversion ND; subst.
  apply H1.
  - eapply Permutation_in; [symmetry; eauto|]. right; auto.
  - intro; subst; auto.
Qed.

Lemma pprod_change2 : forall (f f' : nat -> nat -> C) l s t, NoDup l -> In s l -> In t l -> s <> t ->
  (forall u v, f u v = f v u) -> (forall u v, f' u v = f' v u) ->
  (forall u v, In u l -> In v l -> u <> v -> (u,v) <> (s,t) -> (u,v) <> (t,s) -> f' u v = f u v) ->
  exists R, pprod f l = R * f s t /\ pprod f' l = R * f' s t.
Proof.
  intros f f' l s t ND Hs Ht Hne Sf Sf' Hag.
  destruct (in_perm_front s l Hs) as [l1 P1].
  assert (In t l1) as Ht1.
  { apply (Permutation_in t P1) in Ht. destruct Ht; [congruence|auto]. }
  destruct (in_perm_front t l1 Ht1) as [l2 P2].
  assert (Permutation l (s :: t :: l2)) as P by (rewrite P1, P2; reflexivity).
  pose proof (Permutation_NoDup P ND) as ND2.
  assert (forall u, In u (s :: t :: l2) -> In u l) as Hin.
  { intros. eapply Permutation_in; [symmetry; eauto|auto]. }
  inversion ND2; subst. inversion H2; subst.
  exists (cprod (f s) l2 * cprod (f t) l2 * pprod f l2).
  rewrite (pprod_perm f l _ Sf P), (pprod_perm f' l _ Sf' P). simpl. split; [ring|].
  rewrite (cprod_ext _ (f' s) (f s) l2), (cprod_ext _ (f' t) (f t) l2), (pprod_ext_nd l2 f' f); auto.
  - ring.
  - intros. apply Hag; auto; try (apply Hin; simpl; auto).
    + intro E; inversion E; subst. simpl in H1; tauto.
    + intro E; inversion E; subst. tauto.
  - intros. apply Hag; try (apply Hin; simpl; auto).
    + intro; subst; tauto.
    + intro E; inversion E; subst. tauto.
    + intro E; inversion E; subst. simpl in H1; tauto.
  - intros. apply Hag; try (apply Hin; simpl; auto).
    + intro; subst; simpl in H1; tauto.
    + intro E; inversion E; subst. tauto.
    + intro E; inversion E; subst. tauto.
Qed.
