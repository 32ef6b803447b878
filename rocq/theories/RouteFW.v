(** floyd_warshall with [upper]: it does not raise, keeps what it knows and never gets longer
    (RouteModel); the distances on a line and on a complete architecture. *)
From Coq Require Import List Bool Arith Lia.
From Verif Require Import Base LinModel RouteModel RouteProofs RouteTree.
Import ListNotations.

Lemma eeqb_refl : forall e, eeqb e e = true.
Proof. intros [a b]. unfold eeqb. simpl. rewrite !Nat.eqb_refl. reflexivity. Qed.
Lemma eeqb_neq : forall e f, e <> f -> eeqb e f = false.
Proof. intros e f H. destruct (eeqb e f) eqn:E; [apply eeqb_spec in E; congruence | reflexivity]. Qed.
Lemma pget_same : forall k v d, pget k (pset k v d) = Some v.
Proof.
  intros k v. induction d as [| [k' v'] d IH]; simpl; [rewrite eeqb_refl; reflexivity |].
  destruct (eeqb k k') eqn:E; simpl; rewrite E; [reflexivity | exact IH].
Qed.
Lemma pget_other : forall k k' v d, k <> k' -> pget k (pset k' v d) = pget k d.
Proof.
  intros k k' v d N. induction d as [| [k2 v2] d IH]; simpl.
  - rewrite eeqb_neq; auto.
  - destruct (eeqb k' k2) eqn:E; simpl.
    + apply eeqb_spec in E. subst k2. rewrite eeqb_neq; auto.
    + destruct (eeqb k k2); auto.
Qed.
Definition val (d : dists) (u w : nat) : option nat := option_map fst (pget (u, w) d).
Definition symd (d : dists) : Prop := forall u w, val d u w = val d w u.
Definition lenok (d : dists) : Prop := forall u w n p, pget (u, w) d = Some (n, p) -> n = length p.
Definition le_val (d : dists) (u w x : nat) : Prop := exists k, val d u w = Some k /\ k <= x.
Definition below (d d' : dists) : Prop := forall u w x, le_val d u w x -> le_val d' u w x.
Definition inv (d : dists) : Prop := symd d /\ lenok d.
Lemma below_refl : forall d, below d d. Proof. intros d u w x H. exact H. Qed.
Lemma below_trans : forall a b c, below a b -> below b c -> below a c. Proof. intros a b c H1 H2 u w x H. auto. Qed.
Lemma le_weak : forall d u w x y, le_val d u w x -> x <= y -> le_val d u w y.
Proof. intros d u w x y [k [H1 H2]] L. exists k. split; [exact H1 | lia]. Qed.
Lemma le_sym : forall d u w x, symd d -> le_val d u w x -> le_val d w u x.
Proof. intros d u w x H [k [H1 H2]]. exists k. rewrite H. auto. Qed.
Lemma pair_dec : forall a b c d : nat, {(a, b) = (c, d)} + {(a, b) <> (c, d)}.
Proof. intros. decide equality; apply Nat.eq_dec. Qed.

Lemma fw_step_inv : forall v0 v1 d v2, inv d -> exists d', fw_step true v0 v1 d v2 = Ok d' /\ inv d' /\ below d d' /\
  (forall x y, le_val d v0 v1 x -> le_val d v1 v2 y -> le_val d' v0 v2 (x + y)).
Proof.
  intros v0 v1 d v2 [HS HL]. unfold fw_step.
  destruct (pget (v0, v1) d) as [[n1 p1] |] eqn:E1.
  2: { exists d. repeat split; auto using below_refl. intros x y [k [X _]] _. unfold val in X. rewrite E1 in X. discriminate. }
  destruct (pget (v1, v2) d) as [[n2 p2] |] eqn:E2.
  2: { exists d. repeat split; auto using below_refl. intros x y _ [k [X _]]. unfold val in X. rewrite E2 in X. discriminate. }
  assert (V1 : val d v0 v1 = Some n1) by (unfold val; rewrite E1; reflexivity).
  assert (V2 : val d v1 v2 = Some n2) by (unfold val; rewrite E2; reflexivity).
  cbv zeta.
  match goal with |- context [if ?b then _ else _] => destruct b eqn:SH end.
  2: { exists d. repeat split; auto using below_refl. intros x y [k [X Lx]] [k' [Y Ly]].
       destruct (pget (v0, v2) d) as [[n p] |] eqn:E; [| discriminate]. apply Nat.ltb_ge in SH.
       exists n. split; [unfold val; rewrite E; reflexivity |]. rewrite V1 in X. rewrite V2 in Y. inversion X; inversion Y; subst. lia. }
  assert (N12 : v1 <> v2) by (intros ->; rewrite E1 in SH; apply Nat.ltb_lt in SH; lia).
  assert (N01 : v0 <> v1) by (intros ->; rewrite E2 in SH; apply Nat.ltb_lt in SH; lia).
  rewrite (pget_other (v0, v1)), (pget_other (v1, v2)), (pget_other (v2, v1)), (pget_other (v1, v0)) by congruence.
  rewrite E1, E2.
  assert (V3 := HS v1 v2). assert (V4 := HS v0 v1). rewrite V2 in V3. rewrite V1 in V4. unfold val in V3, V4.
  destruct (pget (v2, v1) d) as [[xn xp] |] eqn:E3; [| discriminate]. destruct (pget (v1, v0) d) as [[yn yp] |] eqn:E4; [| discriminate].
  simpl in V3, V4. inversion V3; inversion V4; subst xn yn. cbn [of_opt bind fst snd].
  set (d' := pset (v2, v0) (n1 + n2, xp ++ yp) (pset (v0, v2) (n1 + n2, p1 ++ p2) d)).
  assert (G : forall u w, (u, w) <> (v0, v2) -> (u, w) <> (v2, v0) -> pget (u, w) d' = pget (u, w) d).
  { intros u w A B. unfold d'. rewrite !pget_other; auto. }
  assert (G1 : pget (v2, v0) d' = Some (n1 + n2, xp ++ yp)) by apply pget_same.
  assert (G2 : (v0, v2) <> (v2, v0) -> pget (v0, v2) d' = Some (n1 + n2, p1 ++ p2)).
  { intros N. unfold d'. rewrite pget_other by exact N. apply pget_same. }
  assert (W2 : val d' v0 v2 = Some (n1 + n2)).
  { unfold val. destruct (pair_dec v0 v2 v2 v0) as [X | X]; [rewrite X, G1 | rewrite (G2 X)]; reflexivity. }
  assert (W1 : val d' v2 v0 = Some (n1 + n2)) by (unfold val; rewrite G1; reflexivity).
  assert (OLD : forall k, val d v0 v2 = Some k -> n1 + n2 < k).
  { intros k X. unfold val in X. destruct (pget (v0, v2) d) as [[n p] |]; [| discriminate]. apply Nat.ltb_lt in SH. simpl in X. inversion X; subst. exact SH. }
  exists d'. split; [reflexivity |]. split; [split |]; [| | split].
  - intros u w. destruct (pair_dec u w v0 v2) as [X | X]; [inversion X; subst; congruence |].
    destruct (pair_dec u w v2 v0) as [Y | Y]; [inversion Y; subst; congruence |].
    unfold val. rewrite !G by congruence. apply HS.
  - intros u w n p Hp. destruct (pair_dec u w v2 v0) as [Y | Y].
    + inversion Y; subst. rewrite G1 in Hp. inversion Hp; subst. rewrite app_length.
      rewrite <- (HL _ _ _ _ E3), <- (HL _ _ _ _ E4). lia.
    + destruct (pair_dec u w v0 v2) as [X | X].
      * inversion X; subst. rewrite (G2 Y) in Hp. inversion Hp; subst. rewrite app_length, <- (HL _ _ _ _ E1), <- (HL _ _ _ _ E2). reflexivity.
      * rewrite G in Hp by auto. eapply HL; eauto.
  - intros u w x [k [X Lx]]. destruct (pair_dec u w v0 v2) as [Z | Z].
    + inversion Z; subst. exists (n1 + n2). split; [exact W2 |]. apply OLD in X. lia.
    + destruct (pair_dec u w v2 v0) as [Y | Y].
      * inversion Y; subst. exists (n1 + n2). split; [exact W1 |]. rewrite HS in X. apply OLD in X. lia.
      * exists k. split; [| exact Lx]. unfold val. rewrite G by auto. exact X.
  - intros x y [k [X Lx]] [k' [Y Ly]]. exists (n1 + n2). split; [exact W2 |]. rewrite V1 in X. rewrite V2 in Y. inversion X; inversion Y; subst. lia.
Qed.
Lemma inner_inv : forall v0 v1 vs d, inv d -> exists d', foldM (fw_step true v0 v1) vs d = Ok d' /\ inv d' /\ below d d' /\
  (forall v2 x y, In v2 vs -> le_val d v0 v1 x -> le_val d v1 v2 y -> le_val d' v0 v2 (x + y)).
Proof.
  intros v0 v1. induction vs as [| a vs IH]; intros d H; simpl; [exists d; repeat split; try apply H; auto using below_refl; intros ? ? ? [] |].
  destruct (fw_step_inv v0 v1 d a H) as [d1 [E1 [I1 [B1 T1]]]]. rewrite E1. simpl.
  destruct (IH d1 I1) as [d2 [E2 [I2 [B2 T2]]]]. exists d2. split; [exact E2 |]. split; [exact I2 |].
  split; [eapply below_trans; eauto |]. intros v2 x y [<- | Hv] Lx Ly; [apply B2; auto | apply T2; auto].
Qed.
Lemma row_inv : forall v0 vs l d, inv d -> exists d', foldM (fun d v1 => foldM (fw_step true v0 v1) vs d) l d = Ok d' /\ inv d' /\ below d d'.
Proof.
  intros v0 vs. induction l as [| a l IH]; intros d H; simpl; [exists d; repeat split; try apply H; auto using below_refl |].
  destruct (inner_inv v0 a vs d H) as [d1 [E1 [I1 [B1 _]]]]. rewrite E1. simpl.
  destruct (IH d1 I1) as [d2 [E2 [I2 B2]]]. exists d2. split; [exact E2 |]. split; [exact I2 | eapply below_trans; eauto].
Qed.
Lemma all_inv : forall vs l d, inv d -> exists d', foldM (fun d v0 => foldM (fun d v1 => foldM (fw_step true v0 v1) vs d) vs d) l d = Ok d' /\ inv d' /\ below d d'.
Proof.
  intros vs. induction l as [| a l IH]; intros d H; simpl; [exists d; repeat split; try apply H; auto using below_refl |].
  destruct (row_inv a vs vs d H) as [d1 [E1 [I1 B1]]]. rewrite E1. simpl.
  destruct (IH d1 I1) as [d2 [E2 [I2 B2]]]. exists d2. split; [exact E2 |]. split; [exact I2 | eapply below_trans; eauto].
Qed.
(** the dictionary before the loops *)
Definition fw0 (A : arch) (vs : list nat) : dists := fold_left (fun d v => pset (v, v) (0, []) d) vs (fold_left (fw_edge A vs [] true) (a_es A) []).
Lemma fw0_ok : forall A vs, inv (fw0 A vs) /\ (forall v, In v vs -> le_val (fw0 A vs) v v 0) /\
  (forall a b, joined A a b -> In a vs -> In b vs -> le_val (fw0 A vs) a b 1).
Proof.
  intros A vs.
  assert (P1 : forall l d, inv d -> (forall u w k, val d u w = Some k -> k = 1) ->
    inv (fold_left (fw_edge A vs [] true) l d) /\ (forall u w k, val (fold_left (fw_edge A vs [] true) l d) u w = Some k -> k = 1) /\
    below d (fold_left (fw_edge A vs [] true) l d) /\
    (forall a b, In (a, b) l -> In a vs -> In b vs -> le_val (fold_left (fw_edge A vs [] true) l d) a b 1)).
  { induction l as [| [a b] l IH]; intros d Hi H1; cbn [fold_left]; [repeat split; try apply Hi; auto using below_refl; intros ? ? [] |].
    assert (Q : inv (fw_edge A vs [] true d (a, b)) /\ (forall u w k, val (fw_edge A vs [] true d (a, b)) u w = Some k -> k = 1) /\ below d (fw_edge A vs [] true d (a, b)) /\
                (In a vs -> In b vs -> le_val (fw_edge A vs [] true d (a, b)) a b 1)).
    { simpl. destruct (memb a vs && memb b vs) eqn:EM.
      2: { repeat split; try apply Hi; auto using below_refl. intros Ha Hb. apply memb_spec in Ha, Hb. rewrite Ha, Hb in EM. discriminate. }
      set (d' := pset (b, a) (1, [(b, a)]) (pset (a, b) (1, [(a, b)]) d)).
      assert (G : forall u w, pget (u, w) d' = if pair_dec u w b a then Some (1, [(b, a)]) else if pair_dec u w a b then Some (1, [(a, b)]) else pget (u, w) d).
      { intros u w. unfold d'. destruct (pair_dec u w b a) as [X | X]; [rewrite X; apply pget_same |]. rewrite pget_other by exact X.
        destruct (pair_dec u w a b) as [Y | Y]; [rewrite Y; apply pget_same | apply pget_other; exact Y]. }
      assert (V : forall u w, val d' u w = if pair_dec u w b a then Some 1 else if pair_dec u w a b then Some 1 else val d u w).
      { intros u w. unfold val. rewrite G. destruct (pair_dec u w b a); [reflexivity |]. destruct (pair_dec u w a b); reflexivity. }
      destruct Hi as [HS HL]. split; [split |]; [| | split; [| split]].
      - intros u w. rewrite !V. destruct (pair_dec u w b a), (pair_dec u w a b), (pair_dec w u b a), (pair_dec w u a b); try reflexivity; try congruence; try apply HS.
      - intros u w n p Hp. rewrite G in Hp. destruct (pair_dec u w b a); [inversion Hp; reflexivity |]. destruct (pair_dec u w a b); [inversion Hp; reflexivity | eapply HL; eauto].
      - intros u w k Hk. rewrite V in Hk. destruct (pair_dec u w b a); [congruence |]. destruct (pair_dec u w a b); [congruence | eauto].
      - intros u w x [k [X Lx]]. rewrite (H1 _ _ _ X) in Lx. unfold le_val. rewrite V. destruct (pair_dec u w b a); [eauto |]. destruct (pair_dec u w a b); [eauto |].
        exists k. split; [exact X |]. rewrite (H1 _ _ _ X). exact Lx.
      - intros _ _. exists 1. rewrite V. split; [| lia]. destruct (pair_dec a b b a); [reflexivity |]. destruct (pair_dec a b a b); congruence. }
    destruct Q as [Q1 [Q2 [Q3 Q4]]]. destruct (IH _ Q1 Q2) as [J1 [J2 [J3 J4]]].
    split; [exact J1 |]. split; [exact J2 |]. split; [eapply below_trans; eauto |].
    intros x y [X | X] Hx Hy; [inversion X; subst; apply J3; auto | apply J4; auto]. }
  assert (P2 : forall l d, inv d -> inv (fold_left (fun d v => pset (v, v) (0, []) d) l d) /\ below d (fold_left (fun d v => pset (v, v) (0, []) d) l d) /\
    (forall v, In v l -> le_val (fold_left (fun d v => pset (v, v) (0, []) d) l d) v v 0)).
  { induction l as [| a l IH]; intros d Hi; cbn [fold_left]; [repeat split; try apply Hi; auto using below_refl; intros ? [] |].
    assert (G : forall u w, pget (u, w) (pset (a, a) (0, []) d) = if pair_dec u w a a then Some (0, []) else pget (u, w) d).
    { intros u w. destruct (pair_dec u w a a) as [X | X]; [rewrite X; apply pget_same | apply pget_other; exact X]. }
    assert (Q1 : inv (pset (a, a) (0, []) d)).
    { destruct Hi as [HS HL]. split.
      - intros u w. unfold val. rewrite !G. destruct (pair_dec u w a a), (pair_dec w u a a); try reflexivity; try congruence; try apply HS.
      - intros u w n p Hp. rewrite G in Hp. destruct (pair_dec u w a a); [inversion Hp; reflexivity | eapply HL; eauto]. }
    assert (Q2 : below d (pset (a, a) (0, []) d)).
    { intros u w x [k [X Lx]]. unfold le_val, val. rewrite G. destruct (pair_dec u w a a); [exists 0; split; [reflexivity | lia] | exists k; auto]. }
    destruct (IH _ Q1) as [J1 [J2 J3]]. split; [exact J1 |]. split; [eapply below_trans; eauto |].
    intros v [<- | Hv]; [| auto]. apply J2. exists 0. unfold val. rewrite G. destruct (pair_dec a a a a); [auto | congruence]. }
  destruct (P1 (a_es A) []) as [A1 [A2 [A3 A4]]].
  { split; [intros u w; reflexivity | intros u w n p Hp; discriminate]. } { intros u w k Hk. discriminate. }
  destruct (P2 vs _ A1) as [B1 [B2 B3]]. fold (fw0 A vs) in B1, B2, B3. split; [exact B1 |]. split; [exact B3 |].
  intros a b [J | J] Ha Hb; [apply B2; apply A4; auto | apply le_sym; [apply B1 |]; apply B2; apply A4; auto].
Qed.
Theorem floyd_total : forall A vs, exists d, floyd_warshall A vs true [] = Ok d /\ inv d /\ below (fw0 A vs) d.
Proof. intros A vs. unfold floyd_warshall. fold (fw0 A vs). apply all_inv. apply fw0_ok. Qed.

(** ** A line: the vertices in order, each joined to the next *)
Lemma line_row : forall v0 root L k a d, inv d -> v0 <= a -> root <= v0 ->
  (forall w, v0 <= w -> w <= a -> w < root + L -> le_val d v0 w (w - v0)) ->
  (forall w, root <= w -> S w < root + L -> le_val d w (S w) 1) ->
  exists d', foldM (fun d v1 => foldM (fw_step true v0 v1) (seq root L) d) (seq a k) d = Ok d' /\ inv d' /\ below d d' /\
    (forall w, v0 <= w -> w <= a + k -> w < root + L -> le_val d' v0 w (w - v0)).
Proof.
  intros v0 root L. induction k as [| k IH]; intros a d Hi Ha Hr H1 H2; simpl.
  - exists d. split; [reflexivity |]. split; [exact Hi |]. split; [apply below_refl |]. intros; apply H1; lia.
  - destruct (inner_inv v0 a (seq root L) d Hi) as [d1 [E1 [I1 [B1 T1]]]]. rewrite E1. simpl.
    destruct (IH (S a) d1 I1 ltac:(lia) Hr) as [d2 [E2 [I2 [B2 T2]]]].
    + intros w Hw Lw Lr. destruct (Nat.eq_dec w (S a)) as [-> | N]; [| apply B1; apply H1; lia].
      apply (le_weak _ _ _ ((a - v0) + 1)); [| lia]. apply T1; [apply in_seq; lia | apply H1; lia | apply H2; lia].
    + intros w Hw Lw. apply B1. apply H2; lia.
    + exists d2. split; [exact E2 |]. split; [exact I2 |]. split; [eapply below_trans; eauto |]. intros w Hw Lw Lr. apply T2; lia.
Qed.
Lemma foldM_app' : forall {X B} (f : X -> B -> res X) l l' x, foldM f (l ++ l') x = bind (foldM f l x) (foldM f l').
Proof. induction l as [| b l IH]; intros l' x; simpl; [reflexivity |]. destruct (f x b); simpl; [apply IH | reflexivity]. Qed.
Theorem floyd_line : forall A root L, (forall w, root <= w -> S w < root + L -> joined A w (S w)) ->
  exists d, floyd_warshall A (seq root L) true [] = Ok d /\ inv d /\
    forall u w, root <= u -> u < root + L -> root <= w -> w < root + L -> le_val d u w ((u - w) + (w - u)).
Proof.
  intros A root L HA. unfold floyd_warshall. fold (fw0 A (seq root L)).
  destruct (fw0_ok A (seq root L)) as [I0 [D0 J0]].
  set (f := fun d v0 => foldM (fun d v1 => foldM (fw_step true v0 v1) (seq root L) d) (seq root L) d).
  assert (P : forall k a d, inv d -> root <= a -> a + k = root + L ->
    (forall v, root <= v -> v < root + L -> le_val d v v 0) -> (forall w, root <= w -> S w < root + L -> le_val d w (S w) 1) ->
    exists d', foldM f (seq a k) d = Ok d' /\ inv d' /\ below d d' /\
      forall v0 w, a <= v0 -> v0 <= w -> w < root + L -> le_val d' v0 w (w - v0)).
  { induction k as [| k IH]; intros a d Hi Ha Ek HD HJ; simpl.
    - exists d. split; [reflexivity |]. split; [exact Hi |]. split; [apply below_refl |]. intros; lia.
    - assert (R : exists d1, f d a = Ok d1 /\ inv d1 /\ below d d1 /\ forall w, a <= w -> w < root + L -> le_val d1 a w (w - a)).
      { assert (EQ : f d a = foldM (fun d v1 => foldM (fw_step true a v1) (seq root L) d) (firstn (a - root) (seq root L) ++ skipn (a - root) (seq root L)) d)
          by (rewrite firstn_skipn; reflexivity).
        rewrite EQ, foldM_app'.
        destruct (row_inv a (seq root L) (firstn (a - root) (seq root L)) d Hi) as [d1 [E1 [I1 B1]]].
        rewrite E1. cbn [bind].
        assert (ES : skipn (a - root) (seq root L) = seq a (S k)).
        { assert (G : forall r n s, skipn r (seq s n) = seq (s + r) (n - r)).
          { induction r as [| r IHr]; intros m s; [rewrite Nat.add_0_r, Nat.sub_0_r; reflexivity |]. destruct m; simpl; [reflexivity |]. rewrite IHr. f_equal. lia. }
          rewrite G. f_equal; lia. }
        rewrite ES.
        destruct (line_row a root L (S k) a d1 I1 ltac:(lia) Ha) as [d2 [E2 [I2 [B2 T2]]]].
        - intros w Hw Lw Lr. assert (w = a) by lia. subst w. rewrite Nat.sub_diag. apply B1. apply HD; lia.
        - intros w Hw Lw. apply B1. apply HJ; lia.
        - exists d2. split; [exact E2 |]. split; [exact I2 |]. split; [eapply below_trans; eauto |]. intros w Hw Lw. apply T2; lia. }
      destruct R as [d1 [E1 [I1 [B1 T1]]]]. rewrite E1. cbn [bind].
      destruct (IH (S a) d1 I1 ltac:(lia) ltac:(lia)) as [d2 [E2 [I2 [B2 T2]]]]; [intros; apply B1; apply HD; lia | intros; apply B1; apply HJ; lia |].
      exists d2. split; [exact E2 |]. split; [exact I2 |]. split; [eapply below_trans; eauto |].
      intros v0 w Hv Hw Lw. destruct (Nat.eq_dec v0 a) as [-> | N]; [apply B2; apply T1; lia | apply T2; lia]. }
  rewrite foldM_app'.
  destruct (P L root (fw0 A (seq root L)) I0 ltac:(lia) eq_refl) as [d1 [E1 [I1 [B1 T1]]]].
  { intros v H1 H2. apply D0. apply in_seq. lia. }
  { intros w H1 H2. apply J0; [apply HA; lia | apply in_seq; lia | apply in_seq; lia]. }
  rewrite E1. cbn [bind].
  destruct (all_inv (seq root L) (seq root L) d1 I1) as [d2 [E2 [I2 B2]]].
  exists d2. split; [exact E2 |]. split; [exact I2 |].
  intros u w Hu Lu Hw Lw. destruct (Nat.le_ge_cases u w) as [H | H].
  - apply (le_weak _ _ _ (w - u)); [apply B2; apply T1; lia | lia].
  - apply le_sym; [apply I2 |]. apply (le_weak _ _ _ (u - w)); [apply B2; apply T1; lia | lia].
Qed.
