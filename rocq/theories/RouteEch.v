(** steiner_gauss reaches row echelon form when no Steiner tree ends in a qubit that was not asked
    for (RouteModel). *)
From Coq Require Import List Bool Arith Lia.
From Verif Require Import Base LinModel LinProofs LinAlg LinFacts RouteModel RouteProofs RouteTree.
Import ListNotations.

(** ** Specification *)
(** no tree that steiner_gauss asks for ends in a qubit outside [qs] *)
Definition no_dangling (so : list nat -> list nat) (A : arch) : Prop :=
  forall root qs t a b, steiner_tree so A root (root :: qs) true = Ok t -> In (Some (a, b)) t -> In b (root :: qs) \/ exists c, In (Some (b, c)) t.

Lemma rd_get : forall m i j b, rd m i j = Ok b -> get m i j = b.
Proof.
  intros m i j b E. unfold rd in E. destruct (nth_error m i) as [r |] eqn:Er; simpl in E; [| discriminate].
  apply of_opt_ok in E. unfold get, row. rewrite (nth_error_nth m i [] Er). apply nth_error_nth. exact E.
Qed.
Lemma foldM_app : forall {X B} (f : X -> B -> res X) l l' x, foldM f (l ++ l') x = bind (foldM f l x) (foldM f l').
Proof. induction l as [| b l IH]; intros l' x; simpl; [reflexivity |]. destruct (f x b); simpl; [apply IH | reflexivity]. Qed.

Section Ech.
  Variables (r c : nat).
  (** what a step among the rows from [root] on leaves alone *)
  Definition kept (root : nat) (m m' : mat) : Prop :=
    rect r c m' /\ (forall i j, i < root -> get m' i j = get m i j) /\
    (forall j, (forall i, root <= i -> get m i j = false) -> forall i, root <= i -> get m' i j = false).
  Lemma kept_refl : forall root m, rect r c m -> kept root m m.
  Proof. intros root m H. split; [exact H |]. split; auto. Qed.
  Lemma kept_trans : forall root m1 m2 m3, kept root m1 m2 -> kept root m2 m3 -> kept root m1 m3.
  Proof.
    intros root m1 m2 m3 [_ [A2 A3]] [B1 [B2 B3]]. split; [exact B1 |]. split.
    - intros i j Hi. rewrite B2, A2; auto.
    - intros j H. apply B3. apply A3. exact H.
  Qed.
  Lemma radd_spec : forall s a b s', rect r c (fst s) -> radd s (a, b) = Ok s' ->
    rect r c (fst s') /\ forall i j, get (fst s') i j = if Nat.eqb i b then xorb (get (fst s) b j) (get (fst s) a j) else get (fst s) i j.
  Proof.
    intros [m ops] a b s' R E. unfold radd in E. simpl in *.
    destruct (Nat.ltb a (rows m) && Nat.ltb b (rows m)) eqn:L; [| discriminate].
    apply andb_true_iff in L. rewrite !Nat.ltb_lt in L. unfold rows in L. destruct R as [RL RR]. rewrite RL in L.
    assert (R : rect r c m) by (split; assumption).
    inversion E; subst. simpl. split; [apply row_add_rect; tauto | intros i j; apply (get_row_add (length m) c); tauto].
  Qed.
  Lemma radd_kept : forall root s a b s', rect r c (fst s) -> root <= a -> root <= b -> radd s (a, b) = Ok s' -> kept root (fst s) (fst s').
  Proof.
    intros root s a b s' R Ha Hb E. destruct (radd_spec s a b s' R E) as [R' G]. split; [exact R' |]. split.
    - intros i j Hi. rewrite G. destruct (Nat.eqb_spec i b); [lia | reflexivity].
    - intros j Z i Hi. rewrite G, !Z by auto. destruct (Nat.eqb i b); reflexivity.
  Qed.

  Variables (col root : nat).
  Lemma td_target : forall es seen a b, topdown seen es -> In (a, b) es -> ~ In b seen.
  Proof.
    induction es as [| e es IH]; intros seen a b T H; simpl in *; [tauto |]. destruct T as [_ [T2 T3]].
    destruct H as [-> | H]; [exact T2 |]. intros X. apply (IH _ a b T3 H). apply in_app_iff. auto.
  Qed.
  (** step 1: afterwards every qubit with a child has a one *)
  Lemma fill_ok : forall es seen s z s', rect r c (fst s) -> topdown seen es ->
    (forall a b, In (a, b) es -> root <= a /\ root <= b) ->
    (forall a b, In (a, b) es -> get (fst s) b col = true \/ exists d, In (b, d) es) ->
    find_zeros (fst s) col es = Ok z -> foldM (fill_zero col) (rev z) s = Ok s' ->
    kept root (fst s) (fst s') /\
    (forall a b, In (a, b) es -> get (fst s') a col = true) /\
    (forall i, get (fst s) i col = true -> get (fst s') i col = true) /\
    (forall i, ~ In i (map fst es) -> get (fst s') i col = get (fst s) i col).
  Proof.
    induction es as [| [a b] es IH]; intros seen s z s' R T HB HD Z E; simpl in Z.
    - inversion Z; subst. simpl in E. inversion E; subst. split; [apply kept_refl; exact R |]. repeat split; auto; intros ? ? [].
    - destruct (rd (fst s) a col) as [v |] eqn:Ev; simpl in Z; [| discriminate]. apply rd_get in Ev.
      destruct (find_zeros (fst s) col es) as [z1 |] eqn:Z1; simpl in Z; [| discriminate].
      destruct T as [T1 [T2 T3]]. simpl in T1, T2, T3.
      assert (HD' : forall a0 b0, In (a0, b0) es -> get (fst s) b0 col = true \/ exists d, In (b0, d) es).
      { intros a0 b0 H0. destruct (HD a0 b0 (or_intror H0)) as [X | [d [X | X]]]; [auto | | eauto].
        inversion X; subst. exfalso. apply (td_target es _ a0 b0 T3 H0). apply in_app_iff. auto. }
      assert (HB' : forall a0 b0, In (a0, b0) es -> root <= a0 /\ root <= b0) by (intros; apply HB; right; auto).
      destruct (HB a b (or_introl eq_refl)) as [La Lb].
      destruct v; inversion Z; subst z.
      + destruct (IH _ s z1 s' R T3 HB' HD' Z1 E) as [K1 [K2 [K3 K4]]].
        split; [exact K1 |]. split; [| split; [exact K3 |]].
        * intros a0 b0 [X | X]; [inversion X; subst; apply K3; exact Ev | eapply K2; eauto].
        * intros i Hi. apply K4. intros X. apply Hi. right. exact X.
      + simpl in E. rewrite foldM_app in E.
        destruct (foldM (fill_zero col) (rev z1) s) as [s1 |] eqn:E1; simpl in E; [| discriminate].
        destruct (IH _ s z1 s1 R T3 HB' HD' Z1 E1) as [K1 [K2 [K3 K4]]].
        unfold fill_zero in E. simpl in E.
        destruct (rd (fst s1) a col) as [w |] eqn:Ew; simpl in E; [| discriminate]. apply rd_get in Ew.
        assert (Hb : get (fst s1) b col = true).
        { destruct (HD a b (or_introl eq_refl)) as [X | [d [X | X]]]; [apply K3; exact X | | eapply K2; eauto].
          inversion X; subst. tauto. }
        destruct w; simpl in E.
        * inversion E; subst. split; [exact K1 |]. split; [| split; [exact K3 |]].
          -- intros a0 b0 [X | X]; [inversion X; subst; exact Ew | eapply K2; eauto].
          -- intros i Hi. apply K4. intros X. apply Hi. right. exact X.
        * destruct (radd s1 (b, a)) as [s2 |] eqn:E2; simpl in E; [| discriminate]. inversion E; subst s2. clear E.
          destruct (radd_spec s1 b a s' ltac:(apply K1) E2) as [R2 G].
          assert (K : kept root (fst s1) (fst s')) by (eapply radd_kept; [apply K1 | exact Lb | exact La | exact E2]).
          assert (Ga : get (fst s') a col = true) by (rewrite G, Nat.eqb_refl, Ew, Hb; reflexivity).
          assert (Go : forall i, i <> a -> get (fst s') i col = get (fst s1) i col) by (intros i Ni; rewrite G; apply Nat.eqb_neq in Ni; rewrite Ni; reflexivity).
          split; [eapply kept_trans; eauto |]. split; [| split].
          -- intros a0 b0 [X | X]; [inversion X; subst; exact Ga |].
             destruct (Nat.eq_dec a0 a) as [-> | N]; [exact Ga | rewrite Go by exact N; eapply K2; eauto].
          -- intros i Hi. destruct (Nat.eq_dec i a) as [-> | N]; [exact Ga | rewrite Go by exact N; auto].
          -- intros i Hi. simpl in Hi. rewrite Go by (intros ->; tauto). apply K4. tauto.
  Qed.
  (** step 2: afterwards the targets of the tree have a zero *)
  Lemma clear_ok : forall es seen s s', rect r c (fst s) -> topdown seen es ->
    (forall a b, In (a, b) es -> root <= a /\ root <= b) ->
    (forall a b, In (a, b) es -> get (fst s) a col = true /\ get (fst s) b col = true) ->
    foldM radd (rev es) s = Ok s' ->
    kept root (fst s) (fst s') /\ (forall b, In b (map snd es) -> get (fst s') b col = false) /\
    (forall i, ~ In i (map snd es) -> get (fst s') i col = get (fst s) i col).
  Proof.
    induction es as [| [a b] es IH]; intros seen s s' R T HB H1 E; simpl in E.
    - inversion E; subst. split; [apply kept_refl; exact R |]. split; [intros b [] | auto].
    - rewrite foldM_app in E. destruct (foldM radd (rev es) s) as [s1 |] eqn:E1; simpl in E; [| discriminate].
      destruct T as [T1 [T2 T3]]. simpl in T1, T2, T3.
      destruct (IH _ s s1 R T3 ltac:(intros; apply HB; right; auto) ltac:(intros; apply H1; right; auto) E1) as [K1 [K2 K3]].
      destruct (radd s1 (a, b)) as [s2 |] eqn:E2; simpl in E; [| discriminate]. inversion E; subst s2. clear E.
      destruct (radd_spec s1 a b s' ltac:(apply K1) E2) as [R2 G].
      destruct (HB a b (or_introl eq_refl)) as [La Lb]. destruct (H1 a b (or_introl eq_refl)) as [Ga Gb].
      assert (Nt : forall x, In x (seen ++ [b]) -> ~ In x (map snd es)).
      { intros x Hx Hi. apply in_map_iff in Hi. destruct Hi as [[u v] [<- Hi]]. simpl in Hx. apply (td_target es _ u v T3 Hi). exact Hx. }
      split; [eapply kept_trans; [exact K1 | eapply radd_kept; [apply K1 | exact La | exact Lb | exact E2]] |]. split.
      + intros x Hx. rewrite G. destruct (Nat.eqb_spec x b) as [-> | N].
        * rewrite !K3 by (apply Nt; apply in_app_iff; simpl; auto). rewrite Ga, Gb. reflexivity.
        * apply K2. destruct Hx as [X | X]; [simpl in X; congruence | exact X].
      + intros i Hi. simpl in Hi. rewrite G. destruct (Nat.eqb_spec i b) as [-> | N]; [tauto |]. apply K3. tauto.
  Qed.
End Ech.

Lemma take_map : forall es l, take_none (map Some es ++ None :: l) = Ok (es, l).
Proof. induction es as [| e es IH]; intros l; simpl; [reflexivity |]. rewrite IH. reflexivity. Qed.
Lemma td_source : forall es seen a b, topdown seen es -> In (a, b) es -> In a seen \/ In a (map snd es).
Proof.
  induction es as [| e es IH]; intros seen a b T H; simpl in *; [tauto |]. destruct T as [T1 [_ T3]].
  destruct H as [-> | H]; [auto |]. destruct (IH _ a b T3 H) as [X | X]; [apply in_app_iff in X; destruct X as [X | [X | []]]; auto | auto].
Qed.
(** one column: afterwards the root has the only one among the rows from the root on *)
Theorem reduce_column_ok : forall so A n r c col root qs s s', placed A n -> (forall l x, In x (so l) -> In x l) -> no_dangling so A ->
  rect r c (fst s) ->
  (forall i, In i qs -> i = root \/ get (fst s) i col = true) ->
  (forall i, root <= i -> get (fst s) i col = true -> i = root \/ In i qs) ->
  (exists i, root <= i /\ get (fst s) i col = true) ->
  steiner_reduce so A col root (root :: qs) true s = Ok s' ->
  kept r c root (fst s) (fst s') /\ get (fst s') root col = true /\ forall i, root < i -> get (fst s') i col = false.
Proof.
  intros so A n r c col root qs s s' HP Hso ND R HQ H1 [i0 [Hi0 Gi0]] E. unfold steiner_reduce in E.
  destruct (steiner_tree so A root (root :: qs) true) as [t |] eqn:Et; simpl in E; [| discriminate].
  destruct (tree_ok so A n root (root :: qs) t HP Hso Et) as [es [-> [TD [Lr [Cov [Rng _]]]]]].
  pose proof (fun a b => ND root qs _ a b Et) as ND'. clear ND.
  assert (InT : forall e, In (Some e) (map Some es ++ [None] ++ map Some (rev es) ++ [None]) <-> In e es).
  { intros e. rewrite !in_app_iff, !in_map_iff. split.
    - intros [[x [X Y]] | [[X | []] | [[x [X Y]] | [X | []]]]]; try discriminate; inversion X; subst; [exact Y | apply in_rev; exact Y].
    - intros H. left. exists e. auto. }
  change (map Some es ++ [None] ++ map Some (rev es) ++ [None]) with (map Some es ++ None :: (map Some (rev es) ++ [None])) in E.
  rewrite take_map in E. cbn [bind fst snd] in E.
  destruct (find_zeros (fst s) col es) as [z |] eqn:Ez; simpl in E; [| discriminate].
  destruct (foldM (fill_zero col) (rev z) s) as [s1 |] eqn:E1; simpl in E; [| discriminate].
  rewrite take_map in E. cbn [bind fst snd] in E.
  assert (HB : forall a b, In (a, b) es -> root <= a /\ root <= b).
  { intros a b H. split.
    - destruct (td_source es [root] a b TD H) as [[<- | []] | X]; [lia | apply Rng in X; lia].
    - assert (X : In b (map snd es)) by (apply in_map_iff; exists (a, b); auto). apply Rng in X. lia. }
  assert (HD : forall a b, In (a, b) es -> get (fst s) b col = true \/ exists d, In (b, d) es).
  { intros a b H. destruct (ND' a b (proj2 (InT (a, b)) H)) as [[X | X] | [d X]].
    - exfalso. apply (td_target es [root] a b TD H). left. exact X.
    - destruct (HQ b X) as [-> | G]; [exfalso; apply (td_target es [root] a root TD H); left; reflexivity | auto].
    - right. exists d. apply InT. exact X. }
  destruct (fill_ok r c col root es [root] s z s1 R TD HB HD Ez E1) as [K1 [K2 [K3 K4]]].
  assert (H2 : forall a b, In (a, b) es -> get (fst s1) a col = true /\ get (fst s1) b col = true).
  { intros a b H. split; [eapply K2; eauto |]. destruct (HD a b H) as [X | [d X]]; [apply K3; exact X | eapply K2; eauto]. }
  destruct (clear_ok r c col root es [root] s1 s' ltac:(apply K1) TD HB H2 E) as [L1 [L2 L3]].
  assert (Nr : ~ In root (map snd es)).
  { intros X. apply in_map_iff in X. destruct X as [[u v] [X Y]]. simpl in X. subst v. apply (td_target es [root] u root TD Y). left. reflexivity. }
  split; [eapply kept_trans; eauto |]. split.
  - rewrite L3 by exact Nr. destruct es as [| [a b] es].
    + apply K3. destruct (H1 i0 Hi0 Gi0) as [-> | X]; [exact Gi0 |]. destruct (Cov i0 (or_intror X)) as [-> | []]. exact Gi0.
    + destruct TD as [[X | []] _]. simpl in X. subst a. apply (K2 root b). left. reflexivity.
  - intros i Hi. destruct (in_dec Nat.eq_dec i (map snd es)) as [X | X]; [apply L2; exact X |].
    rewrite L3 by exact X. rewrite K4.
    + destruct (get (fst s) i col) eqn:G; [| reflexivity]. exfalso.
      destruct (H1 i ltac:(lia) G) as [-> | Y]; [lia |]. destruct (Cov i (or_intror Y)) as [-> | Z]; [lia | tauto].
    + intros Y. apply in_map_iff in Y. destruct Y as [[u v] [Y1 Y2]]. simpl in Y1. subst u.
      destruct (td_source es [root] i v TD Y2) as [[Z | []] | Z]; [lia | tauto].
Qed.
Lemma ones_in : forall m col rs l, ones m col rs = Ok l -> forall i, In i l <-> In i rs /\ get m i col = true.
Proof.
  intros m col. induction rs as [| x rs IH]; intros l E i; simpl in E; [inversion E; simpl; tauto |].
  destruct (rd m x col) as [b |] eqn:Eb; simpl in E; [| discriminate]. apply rd_get in Eb.
  destruct (ones m col rs) as [l1 |] eqn:El; simpl in E; [| discriminate]. inversion E; subst.
  specialize (IH l1 eq_refl i). destruct (get m x col) eqn:G; simpl; rewrite IH; split; intros H; intuition (subst; auto; congruence).
Qed.
Lemma find_pivot_ok : forall r c m cur, rect r c m -> forall k p f, find_pivot m cur p k = Ok f ->
  match f with
  | None => forall i j, cur <= i -> p <= j -> j < p + k -> get m i j = false
  | Some (q, l) => p <= q /\ q < p + k /\ (forall i j, cur <= i -> p <= j -> j < q -> get m i j = false) /\ l <> [] /\
                   forall i, In i l <-> cur <= i /\ get m i q = true
  end.
Proof.
  intros r c m cur R. induction k as [| k IH]; intros p f E; simpl in E.
  - inversion E; subst. intros; lia.
  - destruct (ones m p (seq cur (rows m - cur))) as [l |] eqn:El; simpl in E; [| discriminate].
    assert (HI : forall i, In i l <-> cur <= i /\ get m i p = true).
    { intros i. rewrite (ones_in _ _ _ _ El i), in_seq. split; [intuition |]. intros [X Y]. split; [| exact Y].
      destruct (Nat.ltb_spec i r) as [L | L]; [| rewrite (get_out_r r c m i p R L) in Y; discriminate].
      unfold rows. destruct R as [-> _]. lia. }
    destruct l as [| x l].
    + assert (Z : forall i, cur <= i -> get m i p = false).
      { intros i Hi. destruct (get m i p) eqn:G; [| reflexivity]. destruct (proj2 (HI i) (conj Hi G)). }
      specialize (IH (S p) f E). destruct f as [[q l] |].
      * destruct IH as [A1 [A2 [A3 A4]]]. split; [lia |]. split; [lia |]. split; [| exact A4].
        intros i j Hi Hj Lj. destruct (Nat.eq_dec j p) as [-> | N]; [auto | apply A3; lia].
      * intros i j Hi Hj Lj. destruct (Nat.eq_dec j p) as [-> | N]; [auto | apply IH; lia].
    + inversion E; subst. split; [lia |]. split; [lia |]. split; [intros; lia |]. split; [discriminate | exact HI].
Qed.
Section Run.
  Variables (so : list nat -> list nat) (A : arch) (n r c : nat).
  Hypothesis HP : placed A n.
  Hypothesis Hso : forall l x, In x (so l) -> In x l.
  Hypothesis ND : no_dangling so A.
  (** after [k] rows *)
  Definition runok (k : nat) (st : gst * option nat * list nat) : Prop :=
    let '(s, o, pcs) := st in
    rect r c (fst s) /\
    match o with
    | Some q => length pcs = k /\ q <= c /\ ech (fst s) pcs q
    | None => length pcs <= k /\ ech (fst s) pcs c
    end.
  Lemma down_row_ok : forall k st st', runok k st -> down_row so A c st k = Ok st' -> runok (S k) st'.
  Proof.
    intros k [[s [q |]] pcs] st' H E; simpl in H, E.
    2: { inversion E; subst. simpl. destruct H as [H1 [H2 H3]]. split; [exact H1 |]. split; [lia | exact H3]. }
    destruct H as [R [Hk [Hq HE]]].
    destruct (find_pivot (fst s) k q (c - q)) as [f |] eqn:Ef; simpl in E; [| discriminate].
    pose proof (find_pivot_ok r c (fst s) k R _ _ _ Ef) as F. destruct f as [[p l] |].
    - destruct F as [F1 [F2 [F3 [F4 F5]]]].
      match type of E with (bind (steiner_reduce _ _ _ _ ?N _ _) _) = _ => set (nodes := N) in E end.
      destruct (steiner_reduce so A p k nodes true s) as [s1 |] eqn:E1; simpl in E; [| discriminate]. inversion E; subst st'. clear E.
      assert (EN : exists qs, nodes = k :: qs /\ (forall i, In i qs -> i = k \/ get (fst s) i p = true) /\
                    (forall i, k <= i -> get (fst s) i p = true -> i = k \/ In i qs)).
      { unfold nodes. destruct l as [| x l]; [congruence |]. destruct (Nat.eqb_spec x k) as [-> | N].
        - exists l. split; [reflexivity |]. split.
          + intros i Hi. right. apply F5. right. exact Hi.
          + intros i Hi G. destruct (proj2 (F5 i) (conj Hi G)) as [X | X]; auto.
        - exists (x :: l). split; [reflexivity |]. split.
          + intros i Hi. right. apply F5. exact Hi.
          + intros i Hi G. right. apply F5. auto. }
      destruct EN as [qs [EN [Q1 Q2]]]. rewrite EN in E1.
      assert (EX : exists i, k <= i /\ get (fst s) i p = true).
      { destruct l as [| x l]; [congruence |]. exists x. apply F5. left. reflexivity. }
      destruct (reduce_column_ok so A n r c p k qs s s1 HP Hso ND R Q1 Q2 EX E1) as [[R1 [K2 K3]] [G1 G2]].
      split; [exact R1 |]. split; [rewrite app_length; simpl; lia |]. split; [lia |].
      assert (Z : forall i j, k <= i -> j < p -> get (fst s1) i j = false).
      { intros i j Hi Hj. apply K3; [| exact Hi]. intros i' Hi'.
        destruct (Nat.ltb_spec j q); [apply (e_rest _ _ _ HE); lia | apply F3; lia]. }
      destruct HE as [X1 X2 X3 X4 X5]. constructor.
      + intros i j Hij Hj. rewrite app_length in Hj. simpl in Hj.
        destruct (Nat.eq_dec j k) as [-> | Nj].
        * rewrite (app_nth1 pcs) by lia. rewrite app_nth2 by lia. rewrite Hk, Nat.sub_diag. simpl. specialize (X2 i ltac:(lia)). lia.
        * rewrite !app_nth1 by lia. apply X1; lia.
      + intros i Hi. rewrite app_length in Hi. simpl in Hi.
        destruct (Nat.eq_dec i k) as [-> | Ni]; [rewrite app_nth2 by lia; rewrite Hk, Nat.sub_diag; simpl; lia |].
        rewrite app_nth1 by lia. specialize (X2 i ltac:(lia)). lia.
      + intros i Hi. rewrite app_length in Hi. simpl in Hi.
        destruct (Nat.eq_dec i k) as [-> | Ni]; [rewrite app_nth2 by lia; rewrite Hk, Nat.sub_diag; exact G1 |].
        rewrite app_nth1 by lia. rewrite K2 by lia. apply X3. lia.
      + intros i j Hi Hj. rewrite app_length in Hi. simpl in Hi.
        destruct (Nat.eq_dec i k) as [-> | Ni]; [rewrite app_nth2 in Hj by lia; rewrite Hk, Nat.sub_diag in Hj; simpl in Hj; apply Z; lia |].
        rewrite app_nth1 in Hj by lia. rewrite K2 by lia. apply X4; [lia | exact Hj].
      + intros i j Hi Hj. rewrite app_length in Hi. simpl in Hi.
        destruct (Nat.eq_dec j p) as [-> | Nj]; [apply G2; lia | apply Z; lia].
    - inversion E; subst. simpl. split; [exact R |]. split; [lia |].
      destruct HE as [X1 X2 X3 X4 X5]. constructor; auto.
      + intros i Hi. specialize (X2 i Hi). lia.
      + intros i j Hi Hj. destruct (Nat.ltb_spec j q); [apply X5; auto | apply F; lia].
  Qed.
  Lemma down_ok_all : forall k0 l st st', l = seq k0 (length l) -> runok k0 st -> foldM (down_row so A c) l st = Ok st' -> runok (k0 + length l) st'.
  Proof.
    intros k0 l. revert k0. induction l as [| x l IH]; intros k0 st st' El H E; simpl in *; [inversion E; subst; rewrite Nat.add_0_r; exact H |].
    inversion El as [[X Y]]. rewrite <- X in *.
    destruct (down_row so A c st x) as [st1 |] eqn:E1; simpl in E; [| discriminate].
    assert (Q : runok (S x + length l) st') by (apply (IH (S x) st1 st'); [exact Y | eapply down_row_ok; eauto | exact E]).
    rewrite Nat.add_succ_r, ?seq_length. exact Q.
  Qed.
End Run.
Theorem steiner_echelon : forall so A n m s k, placed A n -> (forall l x, In x (so l) -> In x l) -> no_dangling so A ->
  rect (rows m) (cols m) m -> steiner_gauss so A false m = Ok (s, k) ->
  exists pcs, echelon (fst s) pcs /\ length pcs = k.
Proof.
  intros so A n m s k HP Hso ND R E. unfold steiner_gauss in E.
  destruct (foldM (down_row so A (cols m)) (seq 0 (rows m)) (m, [], Some 0, [])) as [[[s1 o] pcs] |] eqn:E1; simpl in E; [| discriminate].
  inversion E; subst. clear E. exists pcs. split; [| reflexivity].
  assert (H : runok (rows m) (cols m) (0 + length (seq 0 (rows m))) (s, o, pcs)).
  { eapply (down_ok_all so A n (rows m) (cols m) HP Hso ND 0); [rewrite seq_length; reflexivity | | exact E1].
    split; [exact R |]. split; [reflexivity |]. split; [lia |]. constructor; simpl; intros; lia. }
  rewrite seq_length in H. simpl in H. destruct H as [R1 H].
  assert (G : exists q, q <= cols m /\ ech (fst s) pcs q /\ (forall i j, length pcs <= i -> get (fst s) i j = false)).
  { destruct o as [q |].
    - destruct H as [H1 [H2 H3]]. exists q. split; [exact H2 |]. split; [exact H3 |]. intros i j Hi. apply (get_out_r (rows m) (cols m)); [exact R1 | lia].
    - destruct H as [H1 H3]. exists (cols m). split; [lia |]. split; [exact H3 |]. intros i j Hi.
      destruct (Nat.ltb_spec j (cols m)); [apply (e_rest _ _ _ H3); auto | apply (get_out_c (rows m) (cols m)); auto]. }
  destruct G as [q [Hq [[X1 X2 X3 X4 X5] HZ]]]. split; [exact X1 |]. split; [| exact HZ].
  intros i Hi. split; [| split; [apply X3; exact Hi | intros j Hj; apply X4; auto]].
  specialize (X2 i Hi). assert (EC : cols (fst s) = cols m).
  { destruct R1 as [L1 L2]. destruct (fst s) as [| y ys] eqn:Es; [| simpl; apply L2; left; reflexivity].
    specialize (X3 i Hi). unfold get, row in X3. rewrite ?Es in X3. destruct i; simpl in X3; destruct (nth _ pcs 0); discriminate. }
  rewrite EC. lia.
Qed.
