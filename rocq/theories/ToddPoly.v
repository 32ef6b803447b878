(** Proofs about ToddModel: MultiLinearPoly and to_clifford. *)
From Coq Require Import ZArith QArith Qcanon List Bool Arith Lia Permutation Sorted.
From Verif Require Import CNum Base ScalarModel LinModel LinProofs LinAlg GateModel ToddModel ToddSig.
Import ListNotations.
Open Scope nat_scope.

(** ** Phases in units of pi/4, modulo 8 *)
Definition cong8 (a b : Z) : Prop := exists q : Z, a = (b + 8 * q)%Z.
Lemma cong8_refl : forall a, cong8 a a. Proof. intros a. exists 0%Z. lia. Qed.
Lemma cong8_sym : forall a b, cong8 a b -> cong8 b a. Proof. intros a b [q E]. exists (- q)%Z. lia. Qed.
Lemma cong8_trans : forall a b c, cong8 a b -> cong8 b c -> cong8 a c. Proof. intros a b c [q E] [r F]. exists (q + r)%Z. lia. Qed.
Lemma cong8_add : forall a b c d, cong8 a b -> cong8 c d -> cong8 (a + c) (b + d). Proof. intros a b c d [q E] [r F]. exists (q + r)%Z. lia. Qed.
Lemma cong8_mul : forall a b c, cong8 a b -> cong8 (a * c) (b * c). Proof. intros a b c [q E]. exists (q * c)%Z. subst. ring. Qed.
Lemma cong8_mod : forall a, cong8 (a mod 8) a. Proof. intros a. exists (- (a / 8))%Z. assert (X := Z.div_mod a 8 ltac:(lia)). lia. Qed.
Definition b2z (b : bool) : Z := if b then 1%Z else 0%Z.

(** the parity of the variables listed in p *)
Fixpoint parp (p : list nat) (x : nat -> bool) : bool := match p with [] => false | v :: p => xorb (x v) (parp p x) end.
(** the parity of the variables selected by a column *)
Definition parl (c : list bool) (x : nat -> bool) : bool := xsum (fun j => nth j c false && x j) (length c).
(** the phase polynomial of a list of columns *)
Fixpoint phs (cs : list (list bool)) (x : nat -> bool) : Z := match cs with [] => 0%Z | c :: cs => (b2z (parl c x) + phs cs x)%Z end.
Lemma phs_app : forall a b x, phs (a ++ b) x = (phs a x + phs b x)%Z.
Proof. induction a as [|c a IH]; intros b x; cbn [app phs]; [reflexivity|rewrite IH; lia]. Qed.
Lemma phs_perm : forall a b x, Permutation a b -> phs a x = phs b x.
Proof. intros a b x P. induction P; simpl; lia. Qed.

Lemma parp_filter : forall c x n k, parp (filter (fun i => nth i c false) (seq k n)) x = xorb (xsum (fun j => nth j c false && x j) (k + n)) (xsum (fun j => nth j c false && x j) k).
Proof.
  intros c x n. induction n as [|n IH]; intros k.
  - simpl. rewrite Nat.add_0_r. symmetry. apply xorb_nilpotent.
  - cbn [seq filter]. replace (k + S n) with (S k + n) by lia. destruct (nth k c false) eqn:E; [cbn [parp]|]; rewrite IH; cbn [xsum]; rewrite E; cbn [andb].
    + destruct (xsum _ (S k + n)), (xsum _ k), (x k); reflexivity.
    + rewrite xorb_false_r. reflexivity.
Qed.
Lemma parl_support : forall c x, parl c x = parp (support c) x.
Proof. intros c x. unfold support. rewrite parp_filter. simpl. rewrite xorb_false_r. reflexivity. Qed.

(** ** The multilinear form of a parity *)
Section Lqc.
  Variable x : nat -> bool.
  Open Scope Z_scope.
  Definition xv (v : nat) : Z := b2z (x v).
  Fixpoint Lf (p : list nat) : Z := match p with [] => 0 | v :: p => xv v + Lf p end.
  Fixpoint Qf (p : list nat) : Z := match p with [] => 0 | v :: p => xv v * Lf p + Qf p end.
  Fixpoint Cf (p : list nat) : Z := match p with [] => 0 | v :: p => xv v * Qf p + Cf p end.
  Lemma lqc : forall p, cong8 (b2z (parp p x)) (Lf p - 2 * Qf p + 4 * Cf p).
  Proof.
    induction p as [|v p [q IH]]; [apply cong8_refl|]. cbn [parp Lf Qf Cf]. 
    assert (E : b2z (xorb (x v) (parp p x)) = xv v + b2z (parp p x) - 2 * (xv v * b2z (parp p x))) by (unfold xv; destruct (x v), (parp p x); reflexivity).
    rewrite E, IH. exists (q - 2 * xv v * q - xv v * Cf p). ring.
  Qed.
  (** value of a MultiLinearPoly *)
  Definition lsum (l : list (nat * Z)) : Z := fold_right (fun e a => snd e * xv (fst e) + a) 0 l.
  Definition qsum (l : list ((nat * nat) * Z)) : Z := fold_right (fun e a => snd e * (xv (fst (fst e)) * xv (snd (fst e))) + a) 0 l.
  Definition csum (l : list (nat * nat * nat)) : Z := fold_right (fun e a => xv (fst (fst e)) * xv (snd (fst e)) * xv (snd e) + a) 0 l.
  Definition mle (m : mlp) : Z := lsum (ml_l m) + 2 * qsum (ml_q m) + 4 * csum (ml_c m).

  Lemma lsum_set : forall l v w, lsum (aset Nat.eqb l v w) = lsum l + (w - match aget Nat.eqb l v with Some w' => w' | None => 0 end) * xv v.
  Proof.
    induction l as [|[k w'] l IH]; intros v w; cbn [aset aget lsum fold_right fst snd]; [unfold lsum; simpl; ring|].
    destruct (Nat.eqb_spec v k) as [->|N]; cbn [lsum fold_right fst snd]; [ring|]. change (fold_right _ 0 (aset Nat.eqb l v w)) with (lsum (aset Nat.eqb l v w)). rewrite IH.
    change (fold_right _ 0 l) with (lsum l). ring.
  Qed.
  Lemma pair_eqb_eq : forall a b, pair_eqb a b = true <-> a = b.
  Proof. intros [a b] [c d]. unfold pair_eqb. simpl. rewrite andb_true_iff, !Nat.eqb_eq. split; [intros [-> ->]; auto|intros E; inversion E; auto]. Qed.
  Lemma triple_eqb_eq : forall a b, triple_eqb a b = true <-> a = b.
  Proof. intros [a b] [c d]. unfold triple_eqb. cbn [fst snd]. rewrite andb_true_iff, pair_eqb_eq, Nat.eqb_eq. split; [intros [-> ->]; auto|intros E; inversion E; auto]. Qed.
  Lemma qsum_set : forall l v w, qsum (aset pair_eqb l v w) = qsum l + (w - match aget pair_eqb l v with Some w' => w' | None => 0 end) * (xv (fst v) * xv (snd v)).
  Proof.
    induction l as [|[k w'] l IH]; intros v w; cbn [aset aget qsum fold_right fst snd]; [unfold qsum; simpl; ring|].
    destruct (pair_eqb v k) eqn:N; cbn [qsum fold_right fst snd]; [apply pair_eqb_eq in N; subst; ring|]. change (fold_right _ 0 (aset pair_eqb l v w)) with (qsum (aset pair_eqb l v w)). rewrite IH.
    change (fold_right _ 0 l) with (qsum l). ring.
  Qed.
  Lemma csum_app : forall l t, csum (l ++ [t]) = csum l + xv (fst (fst t)) * xv (snd (fst t)) * xv (snd t).
  Proof. induction l as [|u l IH]; intros t; cbn [app csum fold_right]; [unfold csum; simpl; ring|]. change (fold_right _ 0 (l ++ [t])) with (csum (l ++ [t])). rewrite IH. change (fold_right _ 0 l) with (csum l). ring. Qed.
  Lemma filter_id : forall t l, ~ In t l -> filter (fun u => negb (triple_eqb t u)) l = l.
  Proof.
    intros t. induction l as [|u l IH]; intros H; auto. simpl. destruct (triple_eqb t u) eqn:E; simpl; [apply triple_eqb_eq in E; subst; destruct H; left; auto|].
    rewrite IH; auto. intros X. apply H. right. exact X.
  Qed.
  Lemma csum_rm : forall l t, NoDup l -> In t l -> csum (filter (fun u => negb (triple_eqb t u)) l) = csum l - xv (fst (fst t)) * xv (snd (fst t)) * xv (snd t).
  Proof.
    induction l as [|u l IH]; intros t N H; [destruct H|]. inversion N; subst. cbn [filter]. destruct (triple_eqb t u) eqn:E; cbn [negb].
    - apply triple_eqb_eq in E. subst u. rewrite filter_id by auto. cbn [csum fold_right]. change (fold_right _ 0 l) with (csum l). ring.
    - destruct H as [->|H]; [rewrite (proj2 (triple_eqb_eq t t) eq_refl) in E; discriminate|]. cbn [csum fold_right].
      change (fold_right _ 0 (filter (fun u0 => negb (triple_eqb t u0)) l)) with (csum (filter (fun u0 => negb (triple_eqb t u0)) l)). rewrite IH by auto.
      change (fold_right _ 0 l) with (csum l). ring.
  Qed.
End Lqc.

(** ** What the additions do to the polynomial *)
(** [pl], [pq], [pc] say which coefficients are odd *)
Record inv (m : mlp) (pl : nat -> bool) (pq : nat * nat -> bool) (pc : nat * nat * nat -> bool) : Prop := mkInv {
  iv_l : NoDup (map fst (ml_l m));
  iv_lv : forall u, match aget Nat.eqb (ml_l m) u with None => pl u = false | Some w => Z.odd w = pl u /\ (pl u = false -> 0 <= w < 8)%Z end;
  iv_q : NoDup (map fst (ml_q m));
  iv_qv : forall u, match aget pair_eqb (ml_q m) u with None => pq u = false | Some w => Z.odd w = pq u /\ (pq u = false -> 0 <= w < 4)%Z end;
  iv_c : NoDup (ml_c m);
  iv_cv : forall t, existsb (triple_eqb t) (ml_c m) = pc t }.
Arguments iv_l {m pl pq pc}. Arguments iv_lv {m pl pq pc}. Arguments iv_q {m pl pq pc}. Arguments iv_qv {m pl pq pc}. Arguments iv_c {m pl pq pc}. Arguments iv_cv {m pl pq pc}.
Lemma inv_ext : forall m pl pq pc pl' pq' pc', inv m pl pq pc -> (forall u, pl u = pl' u) -> (forall u, pq u = pq' u) -> (forall u, pc u = pc' u) -> inv m pl' pq' pc'.
Proof.
  intros m pl pq pc pl' pq' pc' H A B D. constructor; [apply H| |apply H| |apply H|].
  - intros u. rewrite <- A. apply (iv_lv H).
  - intros u. rewrite <- B. apply (iv_qv H).
  - intros u. rewrite <- D. apply (iv_cv H).
Qed.
Section ASet.
  Context {K : Type} (keq : K -> K -> bool).
  Hypothesis keq_eq : forall a b, keq a b = true <-> a = b.
  Lemma keq_refl : forall a, keq a a = true. Proof. intros a. apply keq_eq. reflexivity. Qed.
  Lemma aget_aset : forall (d : list (K * Z)) k v u, aget keq (aset keq d k v) u = if keq u k then Some v else aget keq d u.
  Proof.
    induction d as [|[k' w] d IH]; intros k v u; cbn [aset aget].
    - destruct (keq u k); reflexivity.
    - destruct (keq k k') eqn:E; cbn [aget].
      + apply keq_eq in E. subst k'. destruct (keq u k); reflexivity.
      + rewrite IH. destruct (keq u k') eqn:E2; auto. destruct (keq u k) eqn:E3; auto. apply keq_eq in E2, E3. subst. rewrite keq_refl in E. discriminate.
  Qed.
  Lemma aset_keys : forall (d : list (K * Z)) k v u, In u (map fst (aset keq d k v)) <-> u = k \/ In u (map fst d).
  Proof.
    induction d as [|[k' w] d IH]; intros k v u; cbn [aset map fst].
    - simpl. intuition.
    - destruct (keq k k') eqn:E; cbn [map fst].
      + apply keq_eq in E. subst k'. simpl. intuition.
      + simpl. rewrite IH. intuition.
  Qed.
  Lemma aset_nodup : forall (d : list (K * Z)) k v, NoDup (map fst d) -> NoDup (map fst (aset keq d k v)).
  Proof.
    induction d as [|[k' w] d IH]; intros k v N; cbn [aset map fst].
    - constructor; [easy|constructor].
    - inversion N; subst. destruct (keq k k') eqn:E; cbn [map fst]; [constructor; auto|]. constructor; auto. rewrite aset_keys. intros [->|X]; [rewrite keq_refl in E; discriminate|auto].
  Qed.
  Lemma aget_in : forall (d : list (K * Z)) k v, NoDup (map fst d) -> In (k, v) d -> aget keq d k = Some v.
  Proof.
    induction d as [|[k' w] d IH]; intros k v N H; [destruct H|]. inversion N; subst. cbn [aget]. destruct H as [E|H].
    - inversion E; subst. rewrite keq_refl. reflexivity.
    - destruct (keq k k') eqn:E; [|apply IH; auto]. apply keq_eq in E. subst k'. destruct H2. apply in_map_iff. exists (k, v). auto.
  Qed.
End ASet.
Lemma nat_eqb_eq' : forall a b, Nat.eqb a b = true <-> a = b. Proof. intros. apply Nat.eqb_eq. Qed.

Lemma odd_mod8 : forall w, Z.odd (w mod 8) = Z.odd w.
Proof. intros w. rewrite (Z.div_mod w 8) at 2 by lia. rewrite Z.odd_add. rewrite Z.odd_mul. symmetry. apply xorb_false_l. Qed.
Lemma odd_mod4 : forall w, Z.odd (w mod 4) = Z.odd w.
Proof. intros w. rewrite (Z.div_mod w 4) at 2 by lia. rewrite Z.odd_add. rewrite Z.odd_mul. symmetry. apply xorb_false_l. Qed.
Lemma inv_add_l : forall sub v m pl pq pc, inv m pl pq pc -> inv (add_l sub v m) (fun u => xorb (pl u) (Nat.eqb u v)) pq pc.
Proof.
  intros sub v m pl pq pc H. constructor; cbn [add_l ml_l ml_q ml_c]; try apply H.
  - apply (aset_nodup _ nat_eqb_eq'). apply H.
  - intros u. rewrite (aget_aset _ nat_eqb_eq'). destruct (Nat.eqb_spec u v) as [->|N].
    + assert (X := iv_lv H v). destruct (aget Nat.eqb (ml_l m) v) as [w|].
      * destruct X as [X _]. split; [|intros _; apply Z.mod_pos_bound; lia]. rewrite odd_mod8, Z.odd_add, X. destruct sub; reflexivity.
      * rewrite X. split; [destruct sub; reflexivity|discriminate].
    + rewrite xorb_false_r. apply (iv_lv H).
Qed.
Lemma inv_add_q : forall sub a b m pl pq pc, inv m pl pq pc -> inv (add_q sub a b m) pl (fun u => xorb (pq u) (pair_eqb u (a, b))) pc.
Proof.
  intros sub a b m pl pq pc H. constructor; cbn [add_q ml_l ml_q ml_c]; try apply H.
  - apply (aset_nodup _ pair_eqb_eq). apply H.
  - intros u. rewrite (aget_aset _ pair_eqb_eq). destruct (pair_eqb u (a, b)) eqn:E.
    + apply pair_eqb_eq in E. subst u. assert (X := iv_qv H (a, b)). destruct (aget pair_eqb (ml_q m) (a, b)) as [w|].
      * destruct X as [X _]. split; [|intros _; apply Z.mod_pos_bound; lia]. rewrite odd_mod4, Z.odd_sub, X. destruct sub; reflexivity.
      * rewrite X. destruct sub; (split; [reflexivity|discriminate]).
    + rewrite xorb_false_r. apply (iv_qv H).
Qed.
Lemma existsb_triple : forall t l, existsb (triple_eqb t) l = true <-> In t l.
Proof. intros t l. rewrite existsb_exists. split; [intros [u [H E]]; apply triple_eqb_eq in E; subst; auto|intros H; exists t; split; auto; apply triple_eqb_eq; auto]. Qed.
Lemma bool_iff : forall a b : bool, (a = true <-> b = true) -> a = b. Proof. intros [|] [|] [H1 H2]; auto. symmetry. apply H1. auto. Qed.
Lemma inv_add_c : forall a b c m pl pq pc, inv m pl pq pc -> inv (add_c a b c m) pl pq (fun u => xorb (pc u) (triple_eqb u (a, b, c))).
Proof.
  intros a b c m pl pq pc H. constructor; cbn [add_c ml_l ml_q ml_c]; try apply H.
  - assert (HC := iv_c H). destruct (existsb (triple_eqb (a, b, c)) (ml_c m)) eqn:E; [apply NoDup_filter, HC|].
    apply (Permutation_NoDup (Permutation_cons_append _ _)). constructor; [|exact HC]. intros X. apply existsb_triple in X. congruence.
  - intros u. rewrite <- (iv_cv H u). destruct (existsb (triple_eqb (a, b, c)) (ml_c m)) eqn:E.
    + apply bool_iff. rewrite existsb_triple, filter_In. destruct (triple_eqb u (a, b, c)) eqn:Eu.
      * apply triple_eqb_eq in Eu. subst u. rewrite E. split; [intros [_ X]; rewrite (proj2 (triple_eqb_eq _ _) eq_refl) in X; discriminate|discriminate].
      * rewrite xorb_false_r, existsb_triple. split; [tauto|]. intros X. split; auto. destruct (triple_eqb (a, b, c) u) eqn:E2; auto. apply triple_eqb_eq in E2. subst u. rewrite (proj2 (triple_eqb_eq _ _) eq_refl) in Eu. discriminate.
    + rewrite existsb_app. cbn [existsb]. rewrite orb_false_r. destruct (triple_eqb u (a, b, c)) eqn:Eu.
      * apply triple_eqb_eq in Eu. subst u. rewrite E. reflexivity.
      * rewrite orb_false_r, xorb_false_r. reflexivity.
Qed.

(** which coefficients a parity touches *)
Fixpoint ct_c (v1 v2 : nat) (p : list nat) (t : nat * nat * nat) : bool := match p with [] => false | v3 :: p => xorb (triple_eqb t (v1, v2, v3)) (ct_c v1 v2 p t) end.
Fixpoint ct_bq (v1 : nat) (p : list nat) (t : nat * nat) : bool := match p with [] => false | v2 :: p => xorb (pair_eqb t (v1, v2)) (ct_bq v1 p t) end.
Fixpoint ct_bc (v1 : nat) (p : list nat) (t : nat * nat * nat) : bool := match p with [] => false | v2 :: p => xorb (ct_c v1 v2 p t) (ct_bc v1 p t) end.
Fixpoint ct_al (p : list nat) (u : nat) : bool := match p with [] => false | v :: p => xorb (Nat.eqb u v) (ct_al p u) end.
Fixpoint ct_aq (p : list nat) (t : nat * nat) : bool := match p with [] => false | v :: p => xorb (ct_bq v p t) (ct_aq p t) end.
Fixpoint ct_ac (p : list nat) (t : nat * nat * nat) : bool := match p with [] => false | v :: p => xorb (ct_bc v p t) (ct_ac p t) end.
Ltac inv_close := intros; cbn; rewrite ?xorb_assoc, ?xorb_false_r; reflexivity.
Lemma inv_par_c : forall v1 v2 p m pl pq pc, inv m pl pq pc -> inv (par_c v1 v2 p m) pl pq (fun t => xorb (pc t) (ct_c v1 v2 p t)).
Proof.
  intros v1 v2. induction p as [|v3 p IH]; intros m pl pq pc H; cbn [par_c ct_c].
  - eapply inv_ext; [exact H|inv_close..].
  - eapply inv_ext; [apply IH, inv_add_c, H|inv_close..].
Qed.
Lemma inv_par_b : forall sub v1 p m pl pq pc, inv m pl pq pc -> inv (par_b sub v1 p m) pl (fun t => xorb (pq t) (ct_bq v1 p t)) (fun t => xorb (pc t) (ct_bc v1 p t)).
Proof.
  intros sub v1. induction p as [|v2 p IH]; intros m pl pq pc H; cbn [par_b ct_bq ct_bc].
  - eapply inv_ext; [exact H|inv_close..].
  - eapply inv_ext; [apply IH, inv_par_c, inv_add_q, H|inv_close..].
Qed.
Lemma inv_par_a : forall sub p m pl pq pc, inv m pl pq pc ->
  inv (par_a sub p m) (fun u => xorb (pl u) (ct_al p u)) (fun t => xorb (pq t) (ct_aq p t)) (fun t => xorb (pc t) (ct_ac p t)).
Proof.
  intros sub. induction p as [|v p IH]; intros m pl pq pc H; cbn [par_a ct_al ct_aq ct_ac].
  - eapply inv_ext; [exact H|inv_close..].
  - eapply inv_ext; [apply IH, inv_par_b, inv_add_l, H|inv_close..].
Qed.

(** on an increasing list these are memberships *)
Definition memb (u : nat) (p : list nat) : bool := existsb (Nat.eqb u) p.
Lemma memb_in : forall u p, memb u p = true <-> In u p.
Proof. intros u p. unfold memb. rewrite existsb_exists. split; [intros [v [H E]]; apply Nat.eqb_eq in E; subst; auto|intros H; exists u; split; auto; apply Nat.eqb_refl]. Qed.
Lemma memb_lt : forall v p, Forall (lt v) p -> forall u, u <= v -> memb u p = false.
Proof. intros v p F u L. destruct (memb u p) eqn:E; auto. apply memb_in in E. rewrite Forall_forall in F. specialize (F u E). lia. Qed.
Lemma ct_al_in : forall p, StronglySorted lt p -> forall u, ct_al p u = memb u p.
Proof.
  intros p H. induction H as [|v p H IH F]; intros u; auto. cbn [ct_al]. rewrite IH. unfold memb. simpl. destruct (Nat.eqb_spec u v) as [->|N]; [|apply xorb_false_l].
  fold (memb v p). rewrite (memb_lt v p F v (le_n v)). reflexivity.
Qed.
Lemma ct_c_in : forall v1 v2 p, StronglySorted lt p -> forall a b c, ct_c v1 v2 p (a, b, c) = Nat.eqb a v1 && Nat.eqb b v2 && memb c p.
Proof.
  intros v1 v2 p H. induction H as [|v p H IH F]; intros a b c; cbn [ct_c]; [rewrite andb_false_r; reflexivity|]. rewrite IH. unfold triple_eqb, pair_eqb. cbn [fst snd].
  unfold memb at 2. simpl. fold (memb c p). destruct (Nat.eqb a v1 && Nat.eqb b v2); [|reflexivity]. simpl. destruct (Nat.eqb_spec c v) as [->|N]; [rewrite (memb_lt v p F v (le_n v)); reflexivity|apply xorb_false_l].
Qed.
Lemma ct_bq_in : forall v1 p, StronglySorted lt p -> forall a b, ct_bq v1 p (a, b) = Nat.eqb a v1 && memb b p.
Proof.
  intros v1 p H. induction H as [|v p H IH F]; intros a b; cbn [ct_bq]; [rewrite andb_false_r; reflexivity|]. rewrite IH. unfold pair_eqb. cbn [fst snd].
  unfold memb at 2. simpl. fold (memb b p). destruct (Nat.eqb a v1); [|reflexivity]. simpl. destruct (Nat.eqb_spec b v) as [->|N]; [rewrite (memb_lt v p F v (le_n v)); reflexivity|apply xorb_false_l].
Qed.
Lemma ct_bc_in : forall v1 p, StronglySorted lt p -> forall a b c, ct_bc v1 p (a, b, c) = Nat.eqb a v1 && (Nat.ltb b c && memb b p && memb c p).
Proof.
  intros v1 p H. induction H as [|v p H IH F]; intros a b c; cbn [ct_bc]; [rewrite !andb_false_r; reflexivity|]. rewrite IH, ct_c_in by auto.
  destruct (Nat.eqb a v1); [|reflexivity]. cbn [andb]. unfold memb at 4 5. simpl. fold (memb b p). fold (memb c p).
  destruct (Nat.eqb_spec b v) as [->|Nb]; destruct (Nat.eqb_spec c v) as [->|Nc]; cbn [orb andb].
  - rewrite Nat.ltb_irrefl, (memb_lt v p F v (le_n v)). reflexivity.
  - rewrite (memb_lt v p F v (le_n v)). rewrite andb_false_r, xorb_false_r, andb_true_r. destruct (memb c p) eqn:E; [|rewrite andb_false_r; reflexivity].
    apply memb_in in E. rewrite Forall_forall in F. specialize (F c E). rewrite (proj2 (Nat.ltb_lt _ _) F). reflexivity.
  - rewrite (memb_lt v p F v (le_n v)). rewrite !andb_false_r, andb_true_r. destruct (memb b p) eqn:E; [|rewrite andb_false_r; reflexivity].
    apply memb_in in E. rewrite Forall_forall in F. specialize (F b E). rewrite (proj2 (Nat.ltb_ge _ _) (Nat.lt_le_incl _ _ F)). reflexivity.
  - apply xorb_false_l.
Qed.
Lemma ct_aq_in : forall p, StronglySorted lt p -> forall a b, ct_aq p (a, b) = Nat.ltb a b && memb a p && memb b p.
Proof.
  intros p H. induction H as [|v p H IH F]; intros a b; cbn [ct_aq]; [rewrite andb_false_r; reflexivity|]. rewrite IH, ct_bq_in by auto.
  unfold memb at 4 5. simpl. fold (memb b p). fold (memb a p).
  destruct (Nat.eqb_spec a v) as [->|Nb]; destruct (Nat.eqb_spec b v) as [->|Nc]; cbn [orb andb].
  - rewrite Nat.ltb_irrefl, (memb_lt v p F v (le_n v)). reflexivity.
  - rewrite (memb_lt v p F v (le_n v)). rewrite andb_false_r, xorb_false_r, andb_true_r. destruct (memb b p) eqn:E; [|rewrite andb_false_r; reflexivity].
    apply memb_in in E. rewrite Forall_forall in F. specialize (F b E). rewrite (proj2 (Nat.ltb_lt _ _) F). reflexivity.
  - rewrite (memb_lt v p F v (le_n v)). rewrite !andb_false_r, andb_true_r. destruct (memb a p) eqn:E; [|rewrite andb_false_r; reflexivity].
    apply memb_in in E. rewrite Forall_forall in F. specialize (F a E). rewrite (proj2 (Nat.ltb_ge _ _) (Nat.lt_le_incl _ _ F)). reflexivity.
  - apply xorb_false_l.
Qed.
Lemma ct_ac_in : forall p, StronglySorted lt p -> forall a b c, ct_ac p (a, b, c) = Nat.ltb a b && Nat.ltb b c && (memb a p && memb b p && memb c p).
Proof.
  intros p H. induction H as [|v p H IH F]; intros a b c; cbn [ct_ac]; [rewrite !andb_false_r; reflexivity|]. rewrite IH, ct_bc_in by auto.
  unfold memb at 6 7 8. simpl. fold (memb b p). fold (memb a p). fold (memb c p). rewrite Forall_forall in F.
  assert (X : forall u, memb u p = true -> v < u) by (intros u Hu; apply F, memb_in, Hu).
  destruct (Nat.ltb_spec b c) as [Lbc|Lbc]; [|rewrite !andb_false_r; reflexivity]. cbn [andb]. rewrite !andb_true_r.
  destruct (Nat.eqb_spec a v) as [->|Na]; cbn [orb andb].
  - destruct (memb v p) eqn:Mv; [apply X in Mv; lia|]. cbn [andb]. rewrite andb_false_r, xorb_false_r.
    destruct (Nat.eqb_spec b v) as [->|Nb]; [rewrite Mv, Nat.ltb_irrefl; reflexivity|]. destruct (Nat.eqb_spec c v) as [->|Nc].
    + rewrite Mv. destruct (memb b p) eqn:Mb; [apply X in Mb; lia|]. cbn [orb andb]. rewrite ?andb_false_r. reflexivity.
    + cbn [orb]. destruct (memb b p) eqn:Mb; [|rewrite andb_false_r; reflexivity]. apply X in Mb. rewrite (proj2 (Nat.ltb_lt _ _) Mb). reflexivity.
  - rewrite xorb_false_l. destruct (memb a p) eqn:Ma; [|rewrite !andb_false_r; reflexivity]. apply X in Ma. cbn [andb].
    destruct (Nat.ltb_spec a b) as [Lab|Lab]; [|reflexivity]. cbn [andb].
    destruct (Nat.eqb_spec b v) as [->|Nb]; [lia|]. destruct (Nat.eqb_spec c v) as [->|Nc]; [lia|]. reflexivity.
Qed.
Lemma seq_sorted : forall n k, StronglySorted lt (seq k n).
Proof. induction n as [|n IH]; intros k; cbn [seq]; constructor; auto. apply Forall_forall. intros x H. apply in_seq in H. lia. Qed.
Lemma filter_sorted : forall f l, StronglySorted lt l -> StronglySorted lt (filter f l).
Proof.
  intros f l H. induction H as [|v l H IH F]; [constructor|]. cbn [filter]. destruct (f v); auto. constructor; auto.
  apply Forall_forall. intros u Hu. apply filter_In in Hu. rewrite Forall_forall in F. apply F, Hu.
Qed.
Lemma support_sorted : forall c, StronglySorted lt (support c). Proof. intros c. apply filter_sorted, seq_sorted. Qed.
Lemma support_memb : forall c u, memb u (support c) = bit c u.
Proof.
  intros c u. apply bool_iff. rewrite memb_in. unfold support, bit. rewrite filter_In, in_seq. split; [tauto|]. intros H. split; auto.
  destruct (Nat.lt_ge_cases u (length c)) as [L|L]; [lia|]. rewrite nth_overflow in H by lia. discriminate.
Qed.
Lemma inv_parity : forall sub m c pl pq pc, inv m pl pq pc ->
  inv (add_parity sub m c) (fun u => xorb (pl u) (bit c u)) (fun t => xorb (pq t) (Nat.ltb (fst t) (snd t) && bit c (fst t) && bit c (snd t)))
    (fun t => xorb (pc t) (Nat.ltb (fst (fst t)) (snd (fst t)) && Nat.ltb (snd (fst t)) (snd t) && mono (fst (fst t)) (snd (fst t)) (snd t) c)).
Proof.
  intros sub m c pl pq pc H. assert (S := support_sorted c). eapply inv_ext; [apply inv_par_a; exact H|..].
  - intros u. cbn beta. rewrite ct_al_in, support_memb by auto. reflexivity.
  - intros [a b]. cbn beta. rewrite ct_aq_in, !support_memb by auto. reflexivity.
  - intros [[a b] g]. cbn beta. rewrite ct_ac_in, !support_memb by auto. reflexivity.
Qed.
Lemma inv_matrix : forall sub cs m pl pq pc, inv m pl pq pc ->
  inv (fold_left (add_parity sub) cs m) (fun u => xorb (pl u) (xs (fun c => bit c u) cs)) (fun t => xorb (pq t) (Nat.ltb (fst t) (snd t) && xs (fun c => bit c (fst t) && bit c (snd t)) cs))
    (fun t => xorb (pc t) (Nat.ltb (fst (fst t)) (snd (fst t)) && Nat.ltb (snd (fst t)) (snd t) && xs (mono (fst (fst t)) (snd (fst t)) (snd t)) cs)).
Proof.
  intros sub. induction cs as [|c cs IH]; intros m pl pq pc H; cbn [fold_left xs].
  - eapply inv_ext; [exact H|..]; intros; rewrite ?andb_false_r, xorb_false_r; reflexivity.
  - eapply inv_ext; [apply IH, inv_parity, H|..]; intros u; cbn beta; rewrite xorb_assoc; f_equal.
    + destruct (Nat.ltb (fst u) (snd u)); reflexivity.
    + destruct (Nat.ltb (fst (fst u)) (snd (fst u)) && Nat.ltb (snd (fst u)) (snd u)); reflexivity.
Qed.
Lemma xs_ext : forall F G cs, (forall c, F c = G c) -> xs F cs = xs G cs.
Proof. intros F G cs E. induction cs as [|c cs IH]; simpl; auto. rewrite E, IH. reflexivity. Qed.
Lemma xs_zero : forall F cs, (forall c, In c cs -> F c = false) -> xs F cs = false.
Proof. intros F cs. induction cs as [|c cs IH]; intros E; simpl; auto. rewrite E by (left; auto). rewrite IH; auto. intros d Hd. apply E. right. exact Hd. Qed.
Lemma inv_nil : inv (mkML [] [] []) (fun _ => false) (fun _ => false) (fun _ => false).
Proof. constructor; cbn; try constructor; auto. Qed.
Lemma bit_out : forall n cs c u, colsok n cs -> In c cs -> n <= u -> bit c u = false.
Proof. intros n cs c u OK H L. unfold bit. apply nth_overflow. rewrite (OK c H). exact L. Qed.
(** with equal signatures no coefficient is odd *)
Lemma inv_clifford : forall n cs cs', colsok n cs -> colsok n cs' -> sig_eq n cs cs' ->
  inv (fold_left (add_parity true) cs' (fold_left (add_parity false) cs (mkML [] [] []))) (fun _ => false) (fun _ => false) (fun _ => false).
Proof.
  intros n cs cs' OK OK' SG.
  assert (ALL : forall a b g, xs (mono a b g) cs = xs (mono a b g) cs').
  { intros a b g. destruct (Nat.lt_ge_cases a n) as [A|A]; [destruct (Nat.lt_ge_cases b n) as [B|B]; [destruct (Nat.lt_ge_cases g n) as [G|G]; [apply SG; auto|]|]|].
    all: rewrite !xs_zero; auto; intros c Hc; unfold mono.
    - rewrite (bit_out n cs' c g OK' Hc G). apply andb_false_r.
    - rewrite (bit_out n cs c g OK Hc G). apply andb_false_r.
    - rewrite (bit_out n cs' c b OK' Hc B), andb_false_r. reflexivity.
    - rewrite (bit_out n cs c b OK Hc B), andb_false_r. reflexivity.
    - rewrite (bit_out n cs' c a OK' Hc A). reflexivity.
    - rewrite (bit_out n cs c a OK Hc A). reflexivity. }
  eapply inv_ext; [apply inv_matrix, inv_matrix, inv_nil|..]; intros u; cbn beta; rewrite xorb_false_l.
  - rewrite (xs_ext (fun c => bit c u) (mono u u u)), (xs_ext (fun c => bit c u) (mono u u u)) by (intros c; unfold mono; destruct (bit c u); reflexivity). rewrite ALL. apply xorb_nilpotent.
  - rewrite (xs_ext (fun c => bit c (fst u) && bit c (snd u)) (mono (fst u) (snd u) (snd u))), (xs_ext (fun c => bit c (fst u) && bit c (snd u)) (mono (fst u) (snd u) (snd u)))
      by (intros c; unfold mono; destruct (bit c (fst u)), (bit c (snd u)); reflexivity). rewrite ALL. apply xorb_nilpotent.
  - rewrite ALL. apply xorb_nilpotent.
Qed.

(** ** The value *)
Section Value.
  Variable x : nat -> bool.
  Open Scope Z_scope.
  Notation xw v := (xv x v).
  Lemma mle_add_l : forall sub v m, cong8 (mle x (add_l sub v m)) (mle x m + mult sub * xw v).
  Proof.
    intros sub v m. unfold mle. cbn [add_l ml_l ml_q ml_c]. rewrite lsum_set. destruct (aget Nat.eqb (ml_l m) v) as [w|].
    - destruct (cong8_mod (w + mult sub)) as [q E]. exists (q * xw v). rewrite E. ring.
    - exists 0. ring.
  Qed.
  Lemma mle_add_q : forall sub a b m, cong8 (mle x (add_q sub a b m)) (mle x m - 2 * mult sub * (xw a * xw b)).
  Proof.
    intros sub a b m. unfold mle. cbn [add_q ml_l ml_q ml_c]. rewrite qsum_set. cbn [fst snd]. destruct (aget pair_eqb (ml_q m) (a, b)) as [w|].
    - assert (E := Z.div_mod (w - mult sub) 4 ltac:(lia)). exists (- ((w - mult sub) / 4) * (xw a * xw b)).
      replace ((w - mult sub) mod 4) with (w - mult sub - 4 * ((w - mult sub) / 4)) by lia. ring.
    - destruct sub; [exists 0|exists (xw a * xw b)]; cbn [mult]; ring.
  Qed.
  Lemma mle_add_c : forall a b c m, NoDup (ml_c m) -> cong8 (mle x (add_c a b c m)) (mle x m + 4 * (xw a * xw b * xw c)) /\ cong8 (mle x (add_c a b c m)) (mle x m - 4 * (xw a * xw b * xw c)).
  Proof.
    intros a b c m N. unfold mle. cbn [add_c ml_l ml_q ml_c]. destruct (existsb (triple_eqb (a, b, c)) (ml_c m)) eqn:E.
    - rewrite csum_rm by (auto; apply existsb_triple; exact E). cbn [fst snd]. split; [exists (- (xw a * xw b * xw c))|exists 0]; ring.
    - rewrite csum_app. cbn [fst snd]. split; [exists 0|exists (xw a * xw b * xw c)]; ring.
  Qed.
  Lemma nodup_add_c : forall a b c m, NoDup (ml_c m) -> NoDup (ml_c (add_c a b c m)).
  Proof.
    intros a b c m N. cbn [add_c ml_c]. destruct (existsb _ _) eqn:E; [apply NoDup_filter, N|]. apply (Permutation_NoDup (Permutation_cons_append _ _)). constructor; auto.
    intros X. apply existsb_triple in X. congruence.
  Qed.
  Lemma nodup_par_c : forall v1 v2 p m, NoDup (ml_c m) -> NoDup (ml_c (par_c v1 v2 p m)).
  Proof. intros v1 v2. induction p as [|v p IH]; intros m N; cbn [par_c]; auto. apply IH, nodup_add_c, N. Qed.
  Lemma nodup_par_b : forall sub v1 p m, NoDup (ml_c m) -> NoDup (ml_c (par_b sub v1 p m)).
  Proof. intros sub v1. induction p as [|v p IH]; intros m N; cbn [par_b]; auto. apply IH, nodup_par_c, N. Qed.
  Lemma nodup_par_a : forall sub p m, NoDup (ml_c m) -> NoDup (ml_c (par_a sub p m)).
  Proof. intros sub. induction p as [|v p IH]; intros m N; cbn [par_a]; auto. apply IH, nodup_par_b, N. Qed.
  Lemma mle_par_c : forall (sub : bool) v1 v2 p m, NoDup (ml_c m) -> cong8 (mle x (par_c v1 v2 p m)) (mle x m + 4 * mult sub * (xw v1 * xw v2 * Lf x p)).
  Proof.
    intros sub v1 v2. induction p as [|v p IH]; intros m N; cbn [par_c Lf]; [exists 0; ring|].
    eapply cong8_trans; [apply IH, nodup_add_c, N|]. destruct (mle_add_c v1 v2 v m N) as [[q1 E1] [q2 E2]]. destruct sub; cbn [mult].
    - exists q2. rewrite E2. ring.
    - exists q1. rewrite E1. ring.
  Qed.
  Lemma mle_par_b : forall (sub : bool) v1 p m, NoDup (ml_c m) -> cong8 (mle x (par_b sub v1 p m)) (mle x m + mult sub * (- 2 * (xw v1 * Lf x p) + 4 * (xw v1 * Qf x p))).
  Proof.
    intros sub v1. induction p as [|v p IH]; intros m N; cbn [par_b Lf Qf]; [exists 0; ring|].
    eapply cong8_trans; [apply IH, nodup_par_c, N|]. 
    destruct (mle_par_c sub v1 v p (add_q sub v1 v m) N) as [q1 E1]. destruct (mle_add_q sub v1 v m) as [q2 E2]. exists (q1 + q2). rewrite E1, E2. ring.
  Qed.
  Lemma mle_par_a : forall (sub : bool) p m, NoDup (ml_c m) -> cong8 (mle x (par_a sub p m)) (mle x m + mult sub * (Lf x p - 2 * Qf x p + 4 * Cf x p)).
  Proof.
    intros sub. induction p as [|v p IH]; intros m N; cbn [par_a Lf Qf Cf]; [exists 0; ring|].
    eapply cong8_trans; [apply IH, nodup_par_b, N|].
    destruct (mle_par_b sub v p (add_l sub v m) N) as [q1 E1]. destruct (mle_add_l sub v m) as [q2 E2]. exists (q1 + q2). rewrite E1, E2. ring.
  Qed.
  Lemma mle_matrix : forall (sub : bool) cs m, NoDup (ml_c m) -> cong8 (mle x (fold_left (add_parity sub) cs m)) (mle x m + mult sub * phs cs x).
  Proof.
    intros sub. induction cs as [|c cs IH]; intros m N; cbn [fold_left phs]; [exists 0; ring|].
    eapply cong8_trans; [apply IH, nodup_par_a, N|]. unfold add_parity. destruct (mle_par_a sub (support c) m N) as [q1 E1]. destruct (lqc x (support c)) as [q2 E2].
    rewrite <- parl_support in E2. exists (q1 - mult sub * q2). rewrite E1, E2. ring.
  Qed.
  Lemma nodup_matrix : forall sub cs m, NoDup (ml_c m) -> NoDup (ml_c (fold_left (add_parity sub) cs m)).
  Proof. intros sub. induction cs as [|c cs IH]; intros m N; cbn [fold_left]; auto. apply IH, nodup_par_a, N. Qed.
  Lemma mle_diff : forall cs cs', cong8 (mle x (fold_left (add_parity true) cs' (fold_left (add_parity false) cs (mkML [] [] [])))) (phs cs x - phs cs' x).
  Proof.
    intros cs cs'. assert (N : NoDup (ml_c (mkML [] [] []))) by constructor. eapply cong8_trans; [apply mle_matrix, nodup_matrix, N|].
    destruct (mle_matrix false cs (mkML [] [] []) N) as [q E]. exists q. rewrite E. change (mle x (mkML [] [] [])) with 0. cbn [mult]. ring.
  Qed.
End Value.

(** ** to_clifford *)
(** Clifford diagonal gates, and their phase in units of pi/4 *)
Definition cl_gate (g : gate) : Prop :=
  match g with
  | GZ (KS false) t p => p = frac 1 2
  | GZ (KS true) t p => p = frac (-1) 2
  | GZ KZ t p => p = 1%Qc
  | GCZ c t => c <> t
  | _ => False
  end.
Definition cl_phase (x : nat -> bool) (g : gate) : Z :=
  match g with
  | GZ (KS false) t _ => (2 * b2z (x t))%Z
  | GZ (KS true) t _ => (-2 * b2z (x t))%Z
  | GZ KZ t _ => (4 * b2z (x t))%Z
  | GCZ c t => (4 * b2z (x c && x t))%Z
  | _ => 0%Z
  end.
Definition cl_sum (x : nat -> bool) (gs : list gate) : Z := fold_right (fun g a => (cl_phase x g + a)%Z) 0%Z gs.
Lemma cl_sum_app : forall x a b, cl_sum x (a ++ b) = (cl_sum x a + cl_sum x b)%Z.
Proof. intros x. induction a as [|g a IH]; intros b; cbn [app cl_sum fold_right]; [reflexivity|]. change (fold_right _ 0%Z (a ++ b)) with (cl_sum x (a ++ b)). rewrite IH. change (fold_right _ 0%Z a) with (cl_sum x a). lia. Qed.
Definition gate_below (n : nat) (g : gate) : Prop :=
  match g with GZ _ t _ => t < n | GCZ c t => c < n /\ t < n | _ => True end.
Lemma cliff_l_ok : forall n l gs, (forall u w, In (u, w) l -> u < n /\ Z.odd w = false /\ (0 <= w < 8)%Z) -> Forall cl_gate gs -> Forall (gate_below n) gs ->
  exists gs', foldM cliff_l l gs = Ok gs' /\ Forall cl_gate gs' /\ Forall (gate_below n) gs' /\ forall x, cong8 (cl_sum x gs') (cl_sum x gs + lsum x l).
Proof.
  intros n. induction l as [|[u w] l IH]; intros gs H F B.
  - exists gs. repeat split; auto. intros x. exists 0%Z. unfold lsum. cbn [fold_right fst snd]. ring.
  - assert (H0 := H u w (or_introl eq_refl)). destruct H0 as [Un [Od Rg]]. assert (Hl : forall u w, In (u, w) l -> u < n /\ Z.odd w = false /\ (0 <= w < 8)%Z) by (intros; apply H; right; auto).
    assert (W : (w = 0 \/ w = 2 \/ w = 4 \/ w = 6)%Z).
    { assert (X : (w = 0 \/ w = 1 \/ w = 2 \/ w = 3 \/ w = 4 \/ w = 5 \/ w = 6 \/ w = 7)%Z) by lia. destruct X as [->|[->|[->|[->|[->|[->|[->| ->]]]]]]]; auto; discriminate. }
    assert (ST : forall g, cl_gate g -> gate_below n g -> (forall x, cong8 (cl_phase x g) (w * xv x u)) -> foldM cliff_l l (gs ++ [g]) = foldM cliff_l ((u, w) :: l) gs -> 
      exists gs', foldM cliff_l ((u, w) :: l) gs = Ok gs' /\ Forall cl_gate gs' /\ Forall (gate_below n) gs' /\ forall x, cong8 (cl_sum x gs') (cl_sum x gs + lsum x ((u, w) :: l))).
    { intros g Hg Hb Hp <-. destruct (IH (gs ++ [g]) Hl) as [gs' [A [A1 [A2 A3]]]]; [apply Forall_app; auto|apply Forall_app; auto|].
      exists gs'. split; [exact A|]. split; [exact A1|]. split; [exact A2|]. intros x. eapply cong8_trans; [apply A3|]. rewrite cl_sum_app. destruct (Hp x) as [q E]. exists q. unfold lsum, cl_sum. cbn [fold_right fst snd]. rewrite E. ring. }
    destruct W as [->|[->|[->| ->]]].
    + cbn [foldM cliff_l Z.eqb bind]. destruct (IH gs Hl F B) as [gs' [A [A1 [A2 A3]]]]. exists gs'. split; [exact A|]. split; [exact A1|]. split; [exact A2|]. intros x. eapply cong8_trans; [apply A3|]. exists 0%Z. unfold lsum. cbn [fold_right fst snd]. ring.
    + apply (ST (Sg u false)); [reflexivity|exact Un| |reflexivity]. intros x. exists 0%Z. unfold xv. simpl. destruct (x u); reflexivity.
    + apply (ST (Zg u)); [reflexivity|exact Un| |reflexivity]. intros x. exists 0%Z. unfold xv. simpl. destruct (x u); reflexivity.
    + apply (ST (Sg u true)); [reflexivity|exact Un| |reflexivity]. intros x. exists (- xv x u)%Z. unfold xv. simpl. destruct (x u); reflexivity.
Qed.
Lemma cliff_q_ok : forall n l gs, (forall u v w, In ((u, v), w) l -> u <> v /\ u < n /\ v < n /\ Z.odd w = false /\ (0 <= w < 4)%Z) -> Forall cl_gate gs -> Forall (gate_below n) gs ->
  exists gs', foldM cliff_q l gs = Ok gs' /\ Forall cl_gate gs' /\ Forall (gate_below n) gs' /\ forall x, cong8 (cl_sum x gs') (cl_sum x gs + 2 * qsum x l).
Proof.
  intros n. induction l as [|[[u v] w] l IH]; intros gs H F B.
  - exists gs. repeat split; auto. intros x. exists 0%Z. unfold qsum. cbn [fold_right fst snd]. ring.
  - assert (H0 := H u v w (or_introl eq_refl)). destruct H0 as [Uv [Un [Vn [Od Rg]]]]. assert (Hl : forall u v w, In ((u, v), w) l -> u <> v /\ u < n /\ v < n /\ Z.odd w = false /\ (0 <= w < 4)%Z) by (intros; apply H; right; auto).
    assert (W : (w = 0 \/ w = 2)%Z).
    { assert (X : (w = 0 \/ w = 1 \/ w = 2 \/ w = 3)%Z) by lia. destruct X as [->|[->|[->| ->]]]; auto; discriminate. }
    destruct W as [-> | ->].
    + cbn [foldM cliff_q Z.eqb bind]. destruct (IH gs Hl F B) as [gs' [A [A1 [A2 A3]]]]. exists gs'. split; [exact A|]. split; [exact A1|]. split; [exact A2|]. intros x. eapply cong8_trans; [apply A3|]. exists 0%Z. unfold qsum. cbn [fold_right fst snd]. ring.
    + change (foldM cliff_q ((u, v, 2%Z) :: l) gs) with (foldM cliff_q l (gs ++ [GCZ u v])).
      destruct (IH (gs ++ [GCZ u v]) Hl) as [gs' [A [A1 [A2 A3]]]]; [apply Forall_app; split; auto; constructor; auto; exact Uv|apply Forall_app; split; auto; constructor; auto; split; auto|].
      exists gs'. split; [exact A|]. split; [exact A1|]. split; [exact A2|]. intros x. eapply cong8_trans; [apply A3|]. rewrite cl_sum_app. exists 0%Z. unfold qsum, cl_sum, xv. cbn [fold_right fst snd cl_phase]. destruct (x u), (x v); cbn [b2z andb]; ring.
Qed.

(** keys stay below n *)
Definition keysok (n : nat) (m : mlp) : Prop :=
  (forall u, In u (map fst (ml_l m)) -> u < n) /\ (forall a b, In (a, b) (map fst (ml_q m)) -> a < b /\ b < n).
Lemma keys_par_c : forall n v1 v2 p m, keysok n m -> keysok n (par_c v1 v2 p m).
Proof. intros n v1 v2. induction p as [|v p IH]; intros m H; cbn [par_c]; auto. Qed.
Lemma keys_par_b : forall n sub v1 p m, v1 < n -> (forall v, In v p -> v1 < v /\ v < n) -> keysok n m -> keysok n (par_b sub v1 p m).
Proof.
  intros n sub v1. induction p as [|v p IH]; intros m Hv Hp [H1 H2]; cbn [par_b]; [split; auto|]. apply IH; auto.
  - intros u Hu. apply Hp. right. exact Hu.
  - apply keys_par_c. split; auto. intros a b H. cbn [add_q ml_q] in H. apply (aset_keys _ pair_eqb_eq) in H. destruct H as [E|H]; auto. inversion E; subst. apply Hp. left. reflexivity.
Qed.
Lemma keys_par_a : forall n sub p m, StronglySorted lt p -> (forall v, In v p -> v < n) -> keysok n m -> keysok n (par_a sub p m).
Proof.
  intros n sub p m S. revert m. induction S as [|v p S IH F]; intros m Hp [H1 H2]; cbn [par_a]; [split; auto|]. rewrite Forall_forall in F.
  apply IH; [intros u Hu; apply Hp; right; auto|]. apply keys_par_b; [apply Hp; left; auto|intros u Hu; split; [apply F; auto|apply Hp; right; auto]|].
  split; auto. intros u H. cbn [add_l ml_l] in H. apply (aset_keys _ nat_eqb_eq') in H. destruct H as [->|H]; auto. apply Hp. left. reflexivity.
Qed.
Lemma keys_matrix : forall n sub cs m, colsok n cs -> keysok n m -> keysok n (fold_left (add_parity sub) cs m).
Proof.
  intros n sub. induction cs as [|c cs IH]; intros m OK H; cbn [fold_left]; auto. apply IH; [intros d Hd; apply OK; right; auto|].
  apply keys_par_a; [apply support_sorted| |exact H]. intros v Hv. unfold support in Hv. apply filter_In in Hv. destruct Hv as [Hv _]. apply in_seq in Hv. rewrite (OK c) in Hv by (left; auto). lia.
Qed.

(** with equal signatures to_clifford succeeds, and its gates make up the difference of the phases *)
Theorem to_clifford_ok : forall n cs cs', colsok n cs -> colsok n cs' -> sig_eq n cs cs' ->
  exists gs, to_clifford (fold_left (add_parity true) cs' (fold_left (add_parity false) cs (mkML [] [] []))) = Ok gs /\
    Forall cl_gate gs /\ Forall (gate_below n) gs /\ forall x, cong8 (cl_sum x gs) (phs cs x - phs cs' x).
Proof.
  intros n cs cs' OK OK' SG. assert (I := inv_clifford n cs cs' OK OK' SG). assert (V := fun x => mle_diff x cs cs').
  assert (KK : keysok n (fold_left (add_parity true) cs' (fold_left (add_parity false) cs (mkML [] [] [])))) by (apply keys_matrix, keys_matrix; auto; split; easy).
  set (m := fold_left (add_parity true) cs' (fold_left (add_parity false) cs (mkML [] [] []))) in *. unfold to_clifford.
  destruct (cliff_l_ok n (ml_l m) []) as [g1 [A1 [B1 [D1 E1]]]]; [|constructor|constructor|].
  { intros u w H. assert (G := iv_lv I u). rewrite (aget_in _ nat_eqb_eq' _ _ _ (iv_l I) H) in G. destruct G as [G1 G2]. split; [|auto]. apply (proj1 KK). apply in_map_iff. exists (u, w). auto. }
  rewrite A1. cbn [bind]. destruct (cliff_q_ok n (ml_q m) g1) as [g2 [A2 [B2 [D2 E2]]]]; [|exact B1|exact D1|].
  { intros u v w H. assert (G := iv_qv I (u, v)). rewrite (aget_in _ pair_eqb_eq _ _ _ (iv_q I) H) in G. destruct G as [G1 G2].
    assert (K2 : u < v /\ v < n) by (apply (proj2 KK); apply in_map_iff; exists ((u, v), w); auto). split; [lia|]. split; [lia|]. split; [lia|]. auto. }
  rewrite A2. cbn [bind].
  assert (C0 : ml_c m = []). { destruct (ml_c m) as [|t l] eqn:E; auto. assert (X := iv_cv I t). rewrite E in X. cbn [existsb] in X. rewrite (proj2 (triple_eqb_eq t t) eq_refl) in X. discriminate. }
  rewrite C0. exists g2. split; auto. split; auto. split; auto. intros x. eapply cong8_trans; [apply E2|]. destruct (E1 x) as [q1 F1]. destruct (V x) as [q2 F2].
  unfold mle in F2. rewrite C0 in F2. cbn [csum fold_right cl_sum] in F1, F2. exists (q1 + q2)%Z. rewrite F1. lia.
Qed.
