(** Symbolic phases in a graph, and where the arithmetic fails. *)
From Coq Require Import Reals ZArith QArith Qround Qcanon Qreals List Bool Arith Lia Lra Permutation.
From Verif Require Import CNum Base ScalarModel ScalarProofs SymModel SymProofs.
Import ListNotations.
Open Scope R_scope.

(** phases without continuous variables *)
Definition pbool (isb : nat -> bool) (p : poly) : Prop := forall c t, In (c, t) p -> tbool isb t = true.
Definition sbool (isb : nat -> bool) (a : sphase) : Prop := match a with Num _ => True | Sym p => pbool isb p end.

Lemma padd_pbool : forall isb p q, pbool isb p -> pbool isb q -> pbool isb (padd isb p q).
Proof.
  intros isb p q Hp Hq c t H. unfold padd in H. cbv zeta in H. apply in_map_iff in H. destruct H as [[t' c'] [E H]]. cbn [fst snd] in E. injection E as -> ->. apply filter_In in H. destruct H as [H _].
  assert (G : forall l k, (forall c t, In (c, t) l -> tbool isb t = true) -> (forall t c, In (t, c) k -> tbool isb t = true) ->
    forall t c, In (t, c) (fold_left (fun l (ct : Qc * term) => count isb (fst ct) (snd ct) l) l k) -> tbool isb t = true).
  { induction l as [|[c0 t0] l IH]; intros k Hl Hk t1 c1 I; [exact (Hk _ _ I)|]. cbn [fold_left fst snd] in I. eapply IH; [intros c2 t2 J; apply (Hl c2 t2); right; exact J| |exact I].
    intros t2 c2 J. destruct (count_keys _ _ _ _ _ J) as [[x X]|X]; [exact (Hk _ _ X)|]. injection X as -> _. apply (Hl c0). left. reflexivity. }
  apply (G (p ++ q) [] ) with (c := c); [| |exact H].
  - intros c2 t2 J. apply in_app_iff in J. destruct J as [J|J]; [exact (Hp _ _ J)|exact (Hq _ _ J)].
  - intros ? ? [].
Qed.
Lemma const_pbool : forall isb q, pbool isb (new_const q).
Proof. intros isb q c t [E|[]]. injection E as _ <-. reflexivity. Qed.
Lemma sadd_sbool : forall isb a b, sbool isb a -> sbool isb b -> sbool isb (sadd isb a b).
Proof. intros isb [p|p] [q|q] Ha Hb; cbn [sadd sbool] in *; auto; apply padd_pbool; auto; apply const_pbool. Qed.
Lemma smod2_sbool : forall isb a, sbool isb a -> sbool isb (smod2 a).
Proof. intros isb [q|p] H; cbn [smod2 sbool] in *; auto. intros c t I. unfold pmod2 in I. apply in_map_iff in I. destruct I as [[c' t'] [E I]]. cbn [fst snd] in E. injection E as _ <-. exact (H _ _ I). Qed.
Lemma sbool_safe : forall isb a, sbool isb a -> smod_safe isb a.
Proof. intros isb [q|p] H; cbn [smod_safe]; auto. intros c t I. left. exact (H _ _ I). Qed.

Lemma set_sphase_ok : forall isb r v p d, asg isb r -> smod_safe isb p ->
  cong2 (sev r (sphase_of (set_sphase v p d) v)) (sev r p) /\ forall u, u <> v -> sphase_of (set_sphase v p d) u = sphase_of d u.
Proof.
  intros isb r v p d A S. unfold set_sphase, sphase_of. split; [rewrite dget_dset_eq; apply smod2_val with (isb := isb); auto|]. intros u D. rewrite dget_dset_neq by exact D. reflexivity.
Qed.
Lemma add_to_sphase_ok : forall isb r v p d, asg isb r -> smod_safe isb (sadd isb (sphase_of d v) p) ->
  cong2 (sev r (sphase_of (add_to_sphase isb v p d) v)) (sev r (sphase_of d v) + sev r p) /\ forall u, u <> v -> sphase_of (add_to_sphase isb v p d) u = sphase_of d u.
Proof.
  intros isb r v p d A S. unfold add_to_sphase. split.
  - unfold sphase_of at 1. rewrite dget_dset_eq. eapply cong2_trans; [apply smod2_val with (isb := isb); auto|]. apply sadd_val; exact A.
  - intros u D. unfold sphase_of. rewrite dget_dset_neq by exact D. reflexivity.
Qed.
(** with Boolean variables only, everything is within the domain, for ever *)
Lemma sbool_store : forall isb d v p, (forall u, sbool isb (sphase_of d u)) -> sbool isb p ->
  smod_safe isb p /\ smod_safe isb (sadd isb (sphase_of d v) p) /\ (forall u, sbool isb (sphase_of (set_sphase v p d) u)) /\ (forall u, sbool isb (sphase_of (add_to_sphase isb v p d) u)).
Proof.
  intros isb d v p D P. split; [apply sbool_safe; exact P|]. split; [apply sbool_safe, sadd_sbool; auto|]. split; intros u; unfold set_sphase, add_to_sphase; unfold sphase_of at 1; rewrite dget_dset; destruct (Nat.eqb u v); try (apply (D u)).
  - apply smod2_sbool, P.
  - apply smod2_sbool, sadd_sbool; auto.
Qed.

(** ** failures *)
Lemma odd_not_cong : forall a b (n : Z), a = b + IZR n -> Z.odd n = true -> ~ cong2 a b.
Proof.
  intros a b n E O [k K]. assert (H : IZR n = IZR (2 * k)) by (rewrite mult_IZR; lra). apply eq_IZR in H. subst n. rewrite Z.odd_mul in O. discriminate.
Qed.
Definition bvar (v : nat) : bool := Nat.eqb v 0.
Definition half_asg (v : nat) : R := if Nat.eqb v 0 then 1 else 1 / 2.
Lemma half_asg_ok : asg bvar half_asg.
Proof. intros v H. unfold bvar in H. unfold half_asg. rewrite H. auto. Qed.
Lemma one_item : forall r c v n, ev r [(c, [(v, n)])] = Q2R c * r v ^ n.
Proof. intros. cbn [ev fold_right]. unfold evc. cbn [fst snd evt fold_right]. ring. Qed.

(** powers above 2: (3/2 b)^3 *)
Lemma pow_wrong : exists isb r p n, asg isb r /\ ~ cong2 (ev r (ppow isb p n)) (ev r p ^ n).
Proof.
  exists bvar, half_asg, [(frac 3 2, [(0%nat, 1%nat)])], 3%nat. split; [apply half_asg_ok|].
  assert (E : ppow bvar [(frac 3 2, [(0%nat, 1%nat)])] 3 = [(frac 3 8, [(0%nat, 1%nat)])]).
  { vm_compute. reflexivity. }
  rewrite E, !one_item. apply (odd_not_cong _ _ (-3)); [|reflexivity]. unfold half_asg, frac. simpl. unfold Q2R. simpl. lra.
Qed.
(** reducing the coefficient of a continuous variable: 3x, and x + x *)
Lemma mod_wrong : exists isb r p, asg isb r /\ ~ cong2 (ev r (pmod2 p)) (ev r p).
Proof.
  exists bvar, half_asg, [(frac 3 1, [(1%nat, 1%nat)])]. split; [apply half_asg_ok|]. cbn [pmod2 map fst snd]. rewrite !one_item.
  replace (qmod2 (frac 3 1)) with 1%Qc by (apply Qc_is_canon; vm_compute; reflexivity). apply (odd_not_cong _ _ (-1)); [|reflexivity]. unfold half_asg, frac. simpl. unfold Q2R. simpl. lra.
Qed.
Lemma store_wrong : exists isb r v d p, asg isb r /\ smod_safe isb p /\ smod_safe isb (sphase_of d v) /\
  ~ cong2 (sev r (sphase_of (add_to_sphase isb v p d) v)) (sev r (sphase_of d v) + sev r p).
Proof.
  exists bvar, half_asg, 0%nat, [(0%nat, Sym (new_var 1))], (Sym (new_var 1)). split; [apply half_asg_ok|].
  assert (S : smod_safe bvar (Sym (new_var 1))). { intros c t [E|[]]. injection E as <- <-. right. split; vm_compute; congruence. }
  split; [exact S|]. split; [exact S|].
  assert (E : sphase_of (add_to_sphase bvar 0 (Sym (new_var 1)) [(0%nat, Sym (new_var 1))]) 0 = Sym [(0%Qc, [(1%nat, 1%nat)])]).
  { vm_compute. reflexivity. }
  rewrite E. change (sphase_of [(0%nat, Sym (new_var 1))] 0) with (Sym (new_var 1)). cbn [sev]. unfold new_var. rewrite !one_item. apply (odd_not_cong _ _ (-1)); [|reflexivity]. rewrite qr_0, qr_1. unfold half_asg. simpl. lra.
Qed.
(** equality misses b * b = b *)
Lemma eq_incomplete : exists isb p q, (forall r, asg isb r -> ev r p = ev r q) /\ peqb isb p q = false /\ p = pmul isb q q.
Proof.
  exists bvar, (pmul bvar (new_var 0) (new_var 0)), (new_var 0).
  assert (E : pmul bvar (new_var 0) (new_var 0) = [(1%Qc, [(0%nat, 2%nat)])]). { vm_compute. reflexivity. }
  split; [|split; [|reflexivity]].
  - intros r A. rewrite E. unfold new_var. rewrite !one_item. destruct (A 0%nat eq_refl) as [-> | ->]; simpl; ring.
  - rewrite E. vm_compute. reflexivity.
Qed.

Lemma sym_arith : forall isb r p q, asg isb r ->
  cong2 (ev r (padd isb p q)) (ev r p + ev r q) /\ cong2 (ev r (psub isb p q)) (ev r p - ev r q) /\ ev r (pneg p) = - ev r p /\
  cong2 (ev r (pmul isb p q)) (ev r p * ev r q) /\ (forall c, ev r (new_const c) = Q2R c) /\ (forall v, ev r (new_var v) = r v).
Proof.
  intros isb r p q A. split; [apply padd_val; exact A|]. split; [apply psub_val; exact A|]. split; [apply pneg_val|]. split; [apply pmul_val; exact A|]. split; [apply const_val|].
  intros v. unfold new_var. rewrite one_item, qr_1. ring.
Qed.
Lemma sym_pow : forall isb r p n, asg isb r -> (n <= 2)%nat \/ p_is_pauli isb p = true -> cong2 (ev r (ppow isb p n)) (ev r p ^ n).
Proof. intros isb r p n A [H|H]; [apply ppow_two; auto|apply ppow_pauli; auto]. Qed.
