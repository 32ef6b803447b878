(** Proofs about ToddModel: phase_gates_to_poly against the maps of the gates. *)
From Coq Require Import ZArith QArith Qcanon List Bool Arith Lia Permutation FunctionalExtensionality Znumtheory.
From Verif Require Import CNum Base ScalarModel ScalarProofs LinModel LinProofs LinAlg LinFacts GateModel ToddModel ToddSig ToddPoly ToddNet.
From Verif Require Import GraphSem CircSpec.
Import ListNotations.
Open Scope nat_scope.

(** ** The gates todd_simp takes: ZPhase with a multiple of pi/4, CZ, CNOT *)
Definition todd_gate (n : nat) (g : gate) : Prop :=
  match g with
  | GZ _ t p => t < n /\ exists z : Z, p = frac z 4
  | GCZ c t | GCNOT c t => c < n /\ t < n /\ c <> t
  | _ => False
  end.
(** Circuit.tcount (circuit/__init__.py 422-424) on such gates *)
Definition tcnt (l : list gate) : nat :=
  fold_right (fun g k => match g with GZ _ _ p => if Pos.ltb 2 (Qden (this p)) then S k else k | _ => k end) 0 l.
Lemma tcnt_app : forall a b, tcnt (a ++ b) = tcnt a + tcnt b.
Proof. induction a as [|g a IH]; intros b; auto. cbn [app tcnt fold_right]. change (fold_right _ 0 (a ++ b)) with (tcnt (a ++ b)). rewrite IH. change (fold_right _ 0 a) with (tcnt a). destruct g; auto. match goal with |- context [Pos.ltb 2 ?d] => destruct (Pos.ltb 2 d) end; auto. Qed.

(** ** Multiples of pi/4 *)
Lemma frac4_z : forall z, (frac z 4 * Qcz 4)%Qc = Qcz z.
Proof. intros z. apply Qc_is_canon. change (this (frac z 4 * Qcz 4)%Qc) with (Qred (this (frac z 4) * this (Qcz 4))%Q). rewrite Qred_correct, this_Qcz. unfold frac. rewrite this_Qcz. cbn [this Q2Qc]. rewrite Qred_correct. unfold Qeq, inject_Z. cbn. lia. Qed.
Lemma qtrunc_z : forall z, qtrunc (Qcz z) = z.
Proof.
  intros z. unfold qtrunc. assert (E := this_Qcz z). set (q := this (Qcz z)) in *. unfold Qeq, inject_Z in E. cbn [Qnum Qden] in E. rewrite Z.mul_1_r in E. rewrite E.
  apply Z.quot_mul. discriminate.
Qed.
Lemma qtrunc_frac : forall z, qtrunc (frac z 4 * Qcz 4)%Qc = z.
Proof. intros z. rewrite frac4_z. apply qtrunc_z. Qed.
Lemma den_frac : forall z, Pos.ltb 2 (Qden (this (frac z 4))) = Z.odd z.
Proof.
  intros z. unfold frac. cbn [this Q2Qc]. destruct (Z.odd z) eqn:O.
  - assert (E := Qred_correct (z # 4)). unfold Qeq in E. cbn [Qnum Qden] in E. apply Pos.ltb_lt.
    assert (D : (4 | Z.pos (Qden (Qred (z # 4))))%Z).
    { apply (Gauss 4 z); [exists (Qnum (Qred (z # 4))); lia|]. change 4%Z with (2 * 2)%Z. apply rel_prime_sym, rel_prime_mult; apply rel_prime_sym, prime_rel_prime; try apply prime_2; intros [k Hk]; rewrite Hk, Z.odd_mul in O; simpl in O; rewrite andb_false_r in O; discriminate. }
    destruct D as [k Hk]. destruct k; lia.
  - assert (W : exists w, z = (2 * w)%Z) by (exists (z / 2)%Z; assert (X := Z.div_mod z 2 ltac:(lia)); rewrite Zmod_odd, O in X; lia). destruct W as [w ->].
    rewrite (Qred_complete (2 * w # 4) (w # 2)) by (unfold Qeq; cbn [Qnum Qden]; lia). unfold Qred. assert (G := Z.ggcd_correct_divisors w 2). assert (N := Z.ggcd_gcd w 2).
    destruct (Z.ggcd w 2) as [g [a b]]. cbn [fst snd] in *. destruct G as [_ G]. assert (P := Z.gcd_nonneg w 2). cbn [Qden]. apply Pos.ltb_ge. destruct b as [|b|b]; cbn [Z.to_pos]; try lia. rewrite <- N in P. assert (Q1 : (0 < g)%Z) by (destruct (Z.eq_dec g 0) as [->|]; lia). assert (Q2 : (Z.pos b <= 2)%Z) by (clear - G Q1; nia). lia.
Qed.
Lemma cexp_cong8 : forall a b, cong8 a b -> cexp (frac a 4) = cexp (frac b 4).
Proof. intros a b [q ->]. rewrite <- frac_add, cexp_add, frac_2z. ring. Qed.
Lemma tg_frac : forall t adj, exists z, Tg t adj = GZ (KT adj) t (frac z 4) /\ z = (if adj then -1 else 1)%Z.
Proof. intros t []; eexists; split; reflexivity. Qed.

(** ** Phase and permutation of the basis states *)
Definition step (g : gate) (kx : Z * assignment) : Z * assignment :=
  let (k, x) := kx in
  match g with
  | GZ _ t p => ((k + qtrunc (p * Qcz 4) * b2z (x t))%Z, x)
  | GCZ c t => ((k + 4 * b2z (x c && x t))%Z, x)
  | GCNOT c t => (k, upd x t (xorb (x t) (x c)))
  | _ => (k, x)
  end.
Definition fwd (l : list gate) (kx : Z * assignment) : Z * assignment := fold_left (fun kx g => step g kx) l kx.
Lemma fwd_app : forall a b kx, fwd (a ++ b) kx = fwd b (fwd a kx). Proof. intros. unfold fwd. apply fold_left_app. Qed.
Lemma upd_same : forall (x : assignment) t, upd x t (x t) = x.
Proof. intros x t. apply functional_extensionality. intros v. unfold upd. destruct (Nat.eqb_spec v t) as [->|_]; reflexivity. Qed.
Lemma upd_twice : forall (x : assignment) c t, c <> t -> let y := upd x t (xorb (x t) (x c)) in upd y t (xorb (y t) (y c)) = x.
Proof.
  intros x c t N y. apply functional_extensionality. intros v. unfold y, upd. destruct (Nat.eqb_spec v t) as [->|_]; [|reflexivity]. rewrite Nat.eqb_refl.
  destruct (Nat.eqb_spec c t); [contradiction|]. destruct (x t), (x c); reflexivity.
Qed.
Lemma op1_mP : forall p t s (x : assignment), op1 (mP p) t s x = ((if x t then cexp p else C1) * s x)%C.
Proof.
  intros p t s x. unfold op1, mP, mk2. assert (E := upd_same x t). destruct (x t); rewrite E; ring.
Qed.
Lemma frac_4_0 : cexp (frac 0 4) = C1.
Proof. replace (frac 0 4) with 0%Qc by (apply Qc_is_canon; reflexivity). apply cexp_0. Qed.
Lemma frac4_1 : forall b, sgn b = cexp (frac (4 * b2z b) 4).
Proof. intros []; cbn [b2z sgn]; [|symmetry; apply frac_4_0]. replace (frac (4 * 1) 4) with 1%Qc by (apply Qc_is_canon; reflexivity). symmetry. apply cexp_1. Qed.
Lemma fwd_den : forall n l, Forall (todd_gate n) l -> forall s x, cden l s (snd (fwd l (0%Z, x))) = (cexp (frac (fst (fwd l (0%Z, x))) 4) * s x)%C.
Proof.
  intros n. induction l as [|g l IH] using rev_ind; intros F s x.
  - cbn. rewrite frac_4_0. ring.
  - apply Forall_app in F. destruct F as [F G]. inversion G as [|? ? T _]; subst. unfold cden. rewrite fold_left_app. cbn [fold_left]. change (fold_left (fun s0 g0 => gden g0 s0) l s) with (cden l s).
    rewrite fwd_app. specialize (IH F s x). destruct (fwd l (0%Z, x)) as [k y]. cbn [fst snd] in IH. cbn [fwd fold_left]. destruct g; try contradiction; cbn [step fst snd gden todd_gate] in *.
    + destruct T as [_ [z ->]]. rewrite op1_mP, IH, qtrunc_frac, <- frac_add, cexp_add. destruct (y target); cbn [b2z].
      * rewrite Z.mul_1_r. ring.
      * rewrite Z.mul_0_r. rewrite frac_4_0. ring.
    + destruct T as [_ [_ N]]. assert (E := upd_twice y control target N). cbn zeta in E. rewrite E. exact IH.
    + rewrite IH, frac4_1, <- frac_add, cexp_add. ring.
Qed.
Lemma fwd_onto : forall n l, Forall (todd_gate n) l -> forall y k, exists x, snd (fwd l (k, x)) = y.
Proof.
  intros n. induction l as [|g l IH] using rev_ind; intros F y k.
  - exists y. reflexivity.
  - apply Forall_app in F. destruct F as [F G]. inversion G as [|? ? T _]; subst. 
    assert (H : exists y0, forall k0, snd (step g (k0, y0)) = y).
    { destruct g; try contradiction; try (exists y; reflexivity). destruct T as [_ [_ N]]. exists (upd y target (xorb (y target) (y control))). intros k0. cbn [step snd]. apply upd_twice, N. }
    destruct H as [y0 H]. destruct (IH F y0 k) as [x E]. exists x. rewrite fwd_app. destruct (fwd l (k, x)) as [k1 y1]. cbn [snd] in E. subst y1. apply H.
Qed.
Theorem fwd_eq : forall n l l', Forall (todd_gate n) l -> Forall (todd_gate n) l' ->
  (forall x, snd (fwd l (0%Z, x)) = snd (fwd l' (0%Z, x)) /\ cong8 (fst (fwd l (0%Z, x))) (fst (fwd l' (0%Z, x)))) -> forall s, cden l s = cden l' s.
Proof.
  intros n l l' F F' H s. apply functional_extensionality. intros y. destruct (fwd_onto n l F y 0%Z) as [x E]. destruct (H x) as [A B].
  rewrite <- E, (fwd_den n l F), A, (fwd_den n l' F'). rewrite (cexp_cong8 _ _ B). reflexivity.
Qed.

(** ** The parities on the qubits *)
Definition onq (n : nat) (m : mat) (x y : assignment) : Prop := forall i, y i = if Nat.ltb i n then parl (LinModel.row m i) x else x i.
Lemma parl_unit : forall n i x, i < n -> parl (LinModel.row (mat_id n) i) x = x i.
Proof.
  intros n i x H. assert (R := id_shape n). destruct R as [R _]. unfold parl. rewrite (rect_row n n) by auto. rewrite (xsum_one _ n i H).
  - change (nth i (LinModel.row (mat_id n) i) false) with (get (mat_id n) i i). rewrite id_get, Nat.eqb_refl by auto. reflexivity.
  - intros k Hk N. change (nth k (LinModel.row (mat_id n) i) false) with (get (mat_id n) i k). rewrite id_get by auto. destruct (Nat.eqb_spec i k); [lia|reflexivity].
Qed.
Lemma onq_id : forall n x, onq n (mat_id n) x x.
Proof. intros n x i. destruct (Nat.ltb_spec i n); auto. rewrite parl_unit; auto. Qed.
Lemma onq_ext : forall n m x y y', onq n m x y -> onq n m x y' -> y = y'.
Proof. intros n m x y y' A B. apply functional_extensionality. intros i. rewrite (A i), (B i). reflexivity. Qed.
Lemma nth_xorl : forall a b k, length a = length b -> nth k (xorl a b) false = xorb (nth k a false) (nth k b false).
Proof.
  induction a as [|u a IH]; intros [|v b] k L; try discriminate; cbn [xorl].
  - destruct k; reflexivity.
  - destruct k; [destruct u, v; reflexivity|]. cbn [nth]. apply IH. simpl in L. lia.
Qed.
Lemma xorl_len : forall a b, length a = length b -> length (xorl a b) = length a.
Proof. induction a as [|u a IH]; intros [|v b] L; try discriminate; auto. cbn [xorl length]. rewrite IH; auto. Qed.
Lemma parl_xorl : forall a b x, length a = length b -> parl (xorl a b) x = xorb (parl a x) (parl b x).
Proof.
  intros a b x L. unfold parl. rewrite xorl_len by auto. rewrite <- L. rewrite <- xsum_xor. apply xsum_ext. intros k _. rewrite nth_xorl by auto.
  destruct (nth k a false), (nth k b false), (x k); reflexivity.
Qed.
Lemma row_row_add : forall n m c t i, rect n n m -> t < n -> LinModel.row (row_add c t m) i = if Nat.eqb i t then xorl (LinModel.row m c) (LinModel.row m t) else LinModel.row m i.
Proof. intros n m c t i [R _] H. unfold LinModel.row, row_add. rewrite nth_upd, R, (proj2 (Nat.ltb_lt _ _) H), andb_true_r. reflexivity. Qed.
Lemma onq_cnot : forall n m x y c t, rect n n m -> c < n -> t < n -> c <> t -> onq n m x y -> onq n (row_add c t m) x (upd y t (xorb (y t) (y c))).
Proof.
  intros n m x y c t R Hc Ht N O i. unfold upd. rewrite (row_row_add n) by auto. destruct (Nat.eqb_spec i t) as [->|Ni]; [|apply O].
  rewrite (O t), (O c), (proj2 (Nat.ltb_lt _ _) Hc), (proj2 (Nat.ltb_lt _ _) Ht), parl_xorl by (rewrite !(rect_row n n) by auto; reflexivity). apply xorb_comm.
Qed.

(** ** The terms *)
Definition tsum (x : assignment) (t : terms) : Z := fold_right (fun pv a => (snd pv * b2z (parl (fst pv) x) + a)%Z) 0%Z t.
Definition tok (n : nat) (t : terms) : Prop := NoDup (map fst t) /\ forall p v, In (p, v) t -> length p = n /\ (0 < v < 8)%Z.
Definition nodd (t : terms) : nat := length (filter (fun pv => Z.odd (snd pv)) t).
Lemma beql_iff : forall a b, beql a b = true <-> a = b.
Proof. intros a b. split; [apply beql_eq|intros ->; apply beql_refl]. Qed.
Lemma adel_notin : forall (d : terms) k, ~ In k (map fst d) -> adel beql d k = d.
Proof.
  induction d as [|[k' w] d IH]; intros k H; auto. cbn [adel]. destruct (beql k k') eqn:E; [|rewrite IH; auto; intros X; apply H; right; exact X].
  apply beql_eq in E. subst. exfalso. apply H. left. reflexivity.
Qed.
Lemma aget_notin : forall (d : terms) k, ~ In k (map fst d) -> aget beql d k = None.
Proof.
  induction d as [|[k' w] d IH]; intros k H; auto. cbn [aget]. destruct (beql k k') eqn:E; [|rewrite IH; auto; intros X; apply H; right; exact X].
  apply beql_eq in E. subst. exfalso. apply H. left. reflexivity.
Qed.
Lemma term_split : forall (d : terms) k, NoDup (map fst d) -> (aget beql d k = None /\ ~ In k (map fst d)) \/
  exists a b w, d = a ++ (k, w) :: b /\ aget beql d k = Some w /\ ~ In k (map fst a) /\ ~ In k (map fst b).
Proof.
  induction d as [|[k' w] d IH]; intros k N; [left; auto|]. cbn [map fst] in N. inversion N as [|? ? N1 N2]; subst. cbn [aget]. destruct (beql k k') eqn:E.
  - apply beql_eq in E. subst. right. exists [], d, w. auto.
  - assert (Ne : k <> k') by (intros ->; rewrite beql_refl in E; discriminate). destruct (IH k N2) as [[A B]|[a [b [u [A [B [D F]]]]]]].
    + left. split; auto. intros [X|X]; [apply Ne; auto|contradiction].
    + right. exists ((k', w) :: a), b, u. subst d. split; auto. split; auto. split; auto. intros [X|X]; [apply Ne; auto|contradiction].
Qed.
Lemma aset_notin : forall (d : terms) k v, ~ In k (map fst d) -> aset beql d k v = d ++ [(k, v)].
Proof.
  induction d as [|[k' w] d IH]; intros k v H; auto. cbn [aset app]. destruct (beql k k') eqn:E; [|rewrite IH; auto; intros X; apply H; right; exact X].
  apply beql_eq in E. subst. exfalso. apply H. left. reflexivity.
Qed.
Lemma aset_mid : forall (a b : terms) k w v, ~ In k (map fst a) -> aset beql (a ++ (k, w) :: b) k v = a ++ (k, v) :: b.
Proof.
  induction a as [|[k' u] a IH]; intros b k w v H; cbn [app aset]; [rewrite beql_refl; auto|]. destruct (beql k k') eqn:E; [|rewrite IH; auto; intros X; apply H; right; exact X].
  apply beql_eq in E. subst. exfalso. apply H. left. reflexivity.
Qed.
Lemma adel_mid : forall (a b : terms) k w, ~ In k (map fst a) -> adel beql (a ++ (k, w) :: b) k = a ++ b.
Proof.
  induction a as [|[k' u] a IH]; intros b k w H; cbn [app adel]; [rewrite beql_refl; auto|]. destruct (beql k k') eqn:E; [|rewrite IH; auto; intros X; apply H; right; exact X].
  apply beql_eq in E. subst. exfalso. apply H. left. reflexivity.
Qed.
Lemma tsum_app : forall x a b, tsum x (a ++ b) = (tsum x a + tsum x b)%Z.
Proof. intros x. induction a as [|e a IH]; intros b; auto. cbn [app tsum fold_right]. change (fold_right _ 0%Z (a ++ b)) with (tsum x (a ++ b)). rewrite IH. change (fold_right _ 0%Z a) with (tsum x a). lia. Qed.
Lemma tsum_cons : forall x p v a, tsum x ((p, v) :: a) = (v * b2z (parl p x) + tsum x a)%Z. Proof. reflexivity. Qed.
Lemma nodd_app : forall a b, nodd (a ++ b) = nodd a + nodd b. Proof. intros. unfold nodd. rewrite filter_app, app_length. reflexivity. Qed.
Lemma nodd_cons : forall p v a, nodd ((p, v) :: a) = (if Z.odd v then 1 else 0) + nodd a. Proof. intros. unfold nodd. cbn [filter snd]. destruct (Z.odd v); reflexivity. Qed.
Lemma odd_mod8 : forall z, Z.odd (z mod 8) = Z.odd z.
Proof. intros z. rewrite (Z.div_mod z 8) at 2 by lia. rewrite Z.odd_add, Z.odd_mul. symmetry. apply xorb_false_l. Qed.
Lemma nodup_mid : forall (a b : terms) k w v, NoDup (map fst (a ++ (k, w) :: b)) -> NoDup (map fst (a ++ (k, v) :: b)).
Proof. intros a b k w v. rewrite !map_app. exact (fun H => H). Qed.
Lemma nodup_drop : forall (a b : terms) e, NoDup (map fst (a ++ e :: b)) -> NoDup (map fst (a ++ b)).
Proof. intros a b e. rewrite !map_app. cbn [map]. apply NoDup_remove_1. Qed.
Lemma add_term_ok : forall n t p v, tok n t -> length p = n -> tok n (add_term p v t) /\ (forall x, cong8 (tsum x (add_term p v t)) (tsum x t + v * b2z (parl p x))) /\
  nodd (add_term p v t) <= nodd t + (if Z.odd v then 1 else 0).
Proof.
  intros n t p v [N V] L. unfold add_term. destruct (term_split t p N) as [[A B]|[a [b [w [-> [A [B D]]]]]]]; rewrite A.
  - destruct (Z.eqb_spec (v mod 8) 0) as [Z0|Z1].
    + rewrite adel_notin by auto. split; [split; auto|]. split; [|lia]. intros x. exists (- (v / 8) * b2z (parl p x))%Z. assert (X := Z.div_mod v 8 ltac:(lia)). rewrite X at 1. rewrite Z0. ring.
    + rewrite aset_notin by auto. assert (M := Z.mod_pos_bound v 8 ltac:(lia)). split; [split|split].
      * rewrite map_app. change (NoDup (map fst t ++ [p])). apply NoDup_rev in N. rewrite <- (rev_involutive (map fst t ++ [p])). apply NoDup_rev. rewrite rev_app_distr. cbn [rev app]. constructor; [intros X; apply B, in_rev, X|exact N].
      * intros p0 v0 H. apply in_app_iff in H. destruct H as [H|[H|[]]]; [apply V, H|]. inversion H; subst. split; auto. lia.
      * intros x. rewrite tsum_app, tsum_cons. cbn [tsum fold_right]. apply cong8_add; [apply cong8_refl|]. rewrite Z.add_0_r. apply cong8_mul, cong8_mod.
      * rewrite nodd_app, nodd_cons, odd_mod8. cbn. lia.
  - destruct (Z.eqb_spec ((w + v) mod 8) 0) as [Z0|Z1].
    + rewrite adel_mid by auto. split; [split; [eapply nodup_drop; eauto|]|split].
      * intros p0 v0 H. apply V. apply in_app_iff in H. apply in_app_iff. destruct H; auto. right. right. exact H.
      * intros x. rewrite !tsum_app, tsum_cons. exists (- ((w + v) / 8) * b2z (parl p x))%Z. assert (X := Z.div_mod (w + v) 8 ltac:(lia)). rewrite Z0 in X.
        assert (Y : (v = 8 * ((w + v) / 8) - w)%Z) by lia. rewrite Y at 1. ring.
      * rewrite !nodd_app, nodd_cons. lia.
    + rewrite aset_mid by auto. assert (M := Z.mod_pos_bound (w + v) 8 ltac:(lia)). split; [split; [eapply nodup_mid; eauto|]|split].
      * intros p0 v0 H. apply in_app_iff in H. destruct H as [H|[H|H]]; [apply V, in_app_iff; auto| |apply V, in_app_iff; right; right; exact H]. injection H as <- <-. split; [exact L|lia].
      * intros x. rewrite !tsum_app, !tsum_cons. destruct (cong8_mod (w + v)) as [q E]. exists (q * b2z (parl p x))%Z. rewrite E. ring.
      * rewrite !nodd_app, !nodd_cons, odd_mod8, Z.odd_add. destruct (Z.odd w), (Z.odd v); simpl; lia.
Qed.

(** ** phase_gates_to_poly *)
Record pinv (n : nat) (t : terms) (ex : mat) : Prop := {
  pv_t : tok n t;
  pv_e : exists ops, cnok n ops /\ ex = cnots_mat n ops
}.
Lemma nth_row : forall n ex i, rect n n ex -> i < n -> nth_err ex i = Ok (LinModel.row ex i).
Proof. intros n ex i [R _] H. unfold nth_err, LinModel.row. rewrite (nth_error_nth' ex [] (n := i)) by lia. reflexivity. Qed.
Lemma parl_cz : forall a b, (2 * b2z a + 2 * b2z b + 6 * b2z (xorb a b) = 4 * b2z (b && a) + 8 * (b2z (xorb a b)))%Z.
Proof. intros [] []; reflexivity. Qed.
Lemma poly_gate_ok : forall n g t ex, todd_gate n g -> pinv n t ex -> exists t' ex', poly_gate (t, ex) g = Ok (t', ex') /\ pinv n t' ex' /\ nodd t' <= nodd t + tcnt [g] /\
  forall x k y, cong8 k (tsum x t) -> onq n ex x y -> cong8 (fst (step g (k, y))) (tsum x t') /\ onq n ex' x (snd (step g (k, y))).
Proof.
  intros n g t ex T [TK [ops [OK EX]]]. assert (R : rect n n ex) by (rewrite EX; apply cnots_rect, OK).
  assert (LR : forall i, i < n -> length (LinModel.row ex i) = n) by (intros i Hi; apply (rect_row n n); auto).
  destruct g; try contradiction; cbn [todd_gate] in T.
  - destruct T as [Ht [z ->]]. unfold poly_gate. rewrite (nth_row n) by auto. cbn [bind]. rewrite qtrunc_frac.
    destruct (add_term_ok n t (LinModel.row ex target) z TK (LR target Ht)) as [A [B D]]. do 2 eexists. split; [reflexivity|]. split; [split; eauto|]. split.
    + unfold tcnt. cbn [fold_right]. rewrite den_frac. lia.
    + intros x k0 y Hk Hy. cbn [step fst snd]. split; auto. rewrite qtrunc_frac. eapply cong8_trans; [|apply cong8_sym, B]. apply cong8_add; auto.
      rewrite (Hy target), (proj2 (Nat.ltb_lt _ _) Ht). apply cong8_refl.
  - destruct T as [Hc [Ht N]]. unfold poly_gate. rewrite !(nth_row n) by auto. cbn [bind]. do 2 eexists. split; [reflexivity|]. split; [split; auto|split].
    + exists (ops ++ [(control, target)]). split; [apply Forall_app; split; auto; constructor; [split; [exact Hc|split; [exact Ht|exact N]]|constructor]|]. rewrite cnots_mat_app, <- EX. reflexivity.
    + cbn. lia.
    + intros x k0 y Hk Hy. cbn [step fst snd]. split; auto. apply (onq_cnot n ex x y control target); auto.
  - destruct T as [Hc [Ht N]]. unfold poly_gate. rewrite !(nth_row n) by auto. cbn [bind].
    destruct (add_term_ok n t (LinModel.row ex target) 2 TK (LR _ Ht)) as [A1 [B1 D1]].
    destruct (add_term_ok n _ (LinModel.row ex control) 2 A1 (LR _ Hc)) as [A2 [B2 D2]].
    destruct (add_term_ok n _ (xorl (LinModel.row ex target) (LinModel.row ex control)) 6 A2 ltac:(rewrite xorl_len; rewrite ?LR; auto)) as [A3 [B3 D3]].
    do 2 eexists. split; [reflexivity|]. split; [split; eauto|]. split; [cbn [Z.odd] in *; cbn; lia|].
    intros x k0 y Hk Hy. cbn [step fst snd]. split; auto. eapply cong8_trans; [|apply cong8_sym, B3]. eapply cong8_trans; [|apply cong8_add; [apply cong8_sym, B2|apply cong8_refl]].
    eapply cong8_trans; [|apply cong8_add; [apply cong8_add; [apply cong8_sym, B1|apply cong8_refl]|apply cong8_refl]].
    rewrite (Hy target), (Hy control), (proj2 (Nat.ltb_lt _ _) Ht), (proj2 (Nat.ltb_lt _ _) Hc), parl_xorl by (rewrite !LR; auto). destruct Hk as [q Hk].
    set (u := parl (LinModel.row ex target) x). set (w := parl (LinModel.row ex control) x). exists (q - b2z (xorb u w))%Z. assert (Z := parl_cz u w). lia.
Qed.
Lemma poly_loop_ok : forall n l t ex, Forall (todd_gate n) l -> pinv n t ex -> exists t' ex', foldM poly_gate l (t, ex) = Ok (t', ex') /\ pinv n t' ex' /\ nodd t' <= nodd t + tcnt l /\
  forall x k y, cong8 k (tsum x t) -> onq n ex x y -> cong8 (fst (fwd l (k, y))) (tsum x t') /\ onq n ex' x (snd (fwd l (k, y))).
Proof.
  intros n. induction l as [|g l IH]; intros t ex F P.
  - exists t, ex. split; [reflexivity|]. split; auto. split; [cbn; lia|]. auto.
  - inversion F; subst. destruct (poly_gate_ok n g t ex) as [t1 [ex1 [E1 [P1 [N1 S1]]]]]; auto. destruct (IH t1 ex1) as [t2 [ex2 [E2 [P2 [N2 S2]]]]]; auto.
    exists t2, ex2. cbn [foldM]. rewrite E1. cbn [bind]. split; auto. split; auto. split.
    + change (g :: l) with ([g] ++ l). rewrite tcnt_app. lia.
    + intros x k y Hk Hy. cbn [fwd fold_left]. destruct (S1 x k y Hk Hy) as [A B]. destruct (step g (k, y)) as [k1 y1]. apply S2; auto.
Qed.
Theorem poly_ok : forall n l, Forall (todd_gate n) l -> exists t ex, phase_gates_to_poly l n = Ok (t, ex) /\ pinv n t ex /\ nodd t <= tcnt l /\
  forall x, cong8 (fst (fwd l (0%Z, x))) (tsum x t) /\ onq n ex x (snd (fwd l (0%Z, x))).
Proof.
  intros n l F. destruct (poly_loop_ok n l [] (mat_id n) F) as [t [ex [A [B [D E]]]]].
  - split; [split; [constructor|easy]|]. exists []. split; [constructor|reflexivity].
  - exists t, ex. split; auto. split; auto. split; auto. intros x. apply E; [apply cong8_refl|apply onq_id].
Qed.

(** ** The columns of to_par_matrix *)
Definition tcols (t : terms) : list (list bool) := flat_map (fun pv => repeat (fst pv) (Z.to_nat (snd pv))) t.
Lemma tcols_ok : forall n t, tok n t -> colsok n (tcols t).
Proof. intros n t [_ V] c H. apply in_flat_map in H. destruct H as [[p v] [H1 H2]]. apply repeat_spec in H2. subst. apply (V p v H1). Qed.
Lemma phs_repeat : forall p k x, phs (repeat p k) x = (Z.of_nat k * b2z (parl p x))%Z.
Proof. intros p k x. induction k as [|k IH]; [reflexivity|]. cbn [repeat phs]. rewrite IH, Nat2Z.inj_succ. ring. Qed.
Lemma tcols_phs : forall n t x, (forall p v, In (p, v) t -> length p = n /\ (0 < v < 8)%Z) -> phs (tcols t) x = tsum x t.
Proof.
  intros n t x V. induction t as [|[p v] t IH]; auto. unfold tcols. cbn [flat_map fst snd]. rewrite phs_app, phs_repeat, tsum_cons. fold (tcols t). rewrite IH by (intros; apply V; right; auto).
  destruct (V p v (or_introl eq_refl)). rewrite Z2Nat.id by lia. reflexivity.
Qed.
Lemma xs_repeat : forall F p k, xs F (repeat p k) = F p && Nat.odd k.
Proof. intros F p k. induction k as [|k IH]; [simpl; rewrite andb_false_r; reflexivity|]. cbn [repeat xs]. rewrite IH, Nat.odd_succ, <- Nat.negb_odd. destruct (F p), (Nat.odd k); reflexivity. Qed.
Lemma occ_odd : forall n c t, (forall p v, In (p, v) t -> length p = n /\ (0 < v < 8)%Z) -> occ c (tcols t) = true -> exists v, In (c, v) t /\ Z.odd v = true.
Proof.
  intros n c t V H. induction t as [|[p v] t IH]; [discriminate|]. unfold occ, tcols in H. cbn [flat_map fst snd] in H. rewrite xs_app, xs_repeat in H. fold (tcols t) in H. fold (occ c (tcols t)) in H.
  destruct (occ c (tcols t)) eqn:E.
  - destruct (IH (fun p' v' Hp => V p' v' (or_intror Hp)) eq_refl) as [w [A B]]. exists w. split; auto. right. exact A.
  - rewrite xorb_false_r in H. apply andb_true_iff in H. destruct H as [H1 H2]. apply beql_eq in H1. subst p. exists v. split; [left; reflexivity|].
    destruct (V c v (or_introl eq_refl)). rewrite <- (Z2Nat.id v) by lia. rewrite <- H2. clear. induction (Z.to_nat v) as [|k IH]; auto. rewrite Nat2Z.inj_succ, Z.odd_succ, <- Z.negb_odd, IH, Nat.odd_succ, Nat.negb_odd. reflexivity.
Qed.
Lemma cols_odd : forall n t cs0, tok n t -> remove_trivial_cols (tcols t) = Ok cs0 -> length cs0 <= nodd t.
Proof.
  intros n t cs0 [N V] H. destruct (remove_trivial_ok (tcols t)) as [cs1 [R [[ND _] _]]]. rewrite H in R. inversion R; subst cs1.
  unfold nodd. rewrite <- (map_length fst). apply NoDup_incl_length; auto. intros c Hc. destruct (occ_odd n c t V (remove_trivial_odd _ _ H c Hc)) as [v [A B]].
  apply in_map_iff. exists (c, v). split; auto. apply filter_In. auto.
Qed.
