(** Lists of gates up to commutation: a list of gates and, for every qubit, the
    list of the gates on that qubit, in an order that may differ for commuting gates *)
From Coq Require Import Reals ZArith QArith Qcanon List Bool Arith Lia.
From Verif Require Import LinModel PermModel CNum Base ScalarModel GateModel OptModel GraphSem SumLemmas CircSpec GateProofs GateDecomp.
Import ListNotations.
Open Scope nat_scope.

(** the gates the optimizer places *)
Definition wg (g : gate) : Prop :=
  match g with GZ _ _ _ | GHAD _ => True | GCNOT c t | GCZ c t => c <> t | _ => False end.
Definition onq (q : nat) (g : gate) : bool := nmem q (gate_qubits g).
(** commutes with Z rotations, with X rotations, of qubit q *)
Definition zt (q : nat) (g : gate) : bool :=
  match g with GZ _ t _ => Nat.eqb q t | GCZ c t => Nat.eqb q c || Nat.eqb q t | GCNOT c _ => Nat.eqb q c | _ => false end.
Definition xt (q : nat) (g : gate) : bool := match g with GCNOT _ t => Nat.eqb q t | _ => false end.
Definition same (q : nat) (a b : gate) : bool := (zt q a && zt q b) || (xt q a && xt q b).

Lemma nmem_in : forall q l, nmem q l = true <-> In q l.
Proof. intros q l. unfold nmem. rewrite existsb_exists. split; [intros [x [H E]]; apply Nat.eqb_eq in E; subst; auto|intros H; exists q; split; auto; apply Nat.eqb_refl]. Qed.
Lemma nmem_false : forall q l, nmem q l = false <-> ~ In q l.
Proof. intros q l. rewrite <- nmem_in. destruct (nmem q l); split; intros; congruence. Qed.
Lemma same_sym : forall q a b, same q a b = same q b a.
Proof. intros. unfold same. rewrite (andb_comm (zt q a)), (andb_comm (xt q a)). auto. Qed.
Lemma wg_on : forall g, wg g -> exists q, onq q g = true.
Proof. intros g H. exists (hd 0 (gate_qubits g)). apply nmem_in. destruct g; try (exfalso; exact H); simpl; auto. Qed.

(** ** commuting gates *)
Open Scope C_scope.
Lemma sgn_comm : forall a b (z : C), sgn a * (sgn b * z) = sgn b * (sgn a * z).
Proof. intros. ring. Qed.
Lemma op1_comm : forall m m' a b s, a <> b -> op1 m a (op1 m' b s) = op1 m' b (op1 m a s).
Proof.
  intros m m' a b s N. apply state_ext. intros x. unfold op1. rewrite !(upd_other x) by congruence.
  rewrite !(upd_comm x a b) by auto. ring.
Qed.
Lemma gates_commute : forall a b s, wg a -> wg b -> (forall q, onq q a = true -> onq q b = true -> same q a b = true) -> gden a (gden b s) = gden b (gden a s).
Proof.
  assert (D : forall q (g : gate), onq q g = true <-> In q (gate_qubits g)) by (intros; apply nmem_in).
  assert (HH : forall t g s, wg g -> onq t g = false -> gden (GHAD t) (gden g s) = gden g (gden (GHAD t) s)).
  { intros t g s Wg N. assert (N' : ~ In t (gate_qubits g)) by (rewrite <- D, N; discriminate). destruct g; try (exfalso; exact Wg); cbn [gate_qubits In] in N'.
    - cbn [gden]. apply op1_comm. intros ->. tauto.
    - cbn [gden]. apply op1_comm. intros ->. tauto.
    - apply state_ext. intros x. cbn [gden]. unfold op1. assert (N1 : t <> target) by (intros ->; tauto). assert (N2 : t <> control) by (intros ->; tauto).
      rewrite !(upd_other _ t), !(upd_other _ target) by auto. rewrite !(upd_comm x target t) by auto. reflexivity.
    - apply state_ext. intros x. cbn [gden]. unfold op1. rewrite !(upd_other x) by (intros ->; tauto). ring. }
  intros a b s Wa Wb H.
  assert (SP : (exists t, a = GHAD t) \/ (exists t, b = GHAD t) \/ ((forall t, a <> GHAD t) /\ forall t, b <> GHAD t)).
  { destruct a; try (exfalso; exact Wa); try (left; eexists; reflexivity); right; destruct b; try (exfalso; exact Wb); try (left; eexists; reflexivity); right; split; discriminate. }
  destruct SP as [[t ->]|[[t ->]|[Na Nb]]].
  - apply HH; auto. destruct (onq t b) eqn:E; auto. specialize (H t). unfold onq at 1 in H. simpl in H. rewrite Nat.eqb_refl in H. unfold same in H. simpl in H. discriminate (H eq_refl E).
  - symmetry. apply HH; auto. destruct (onq t a) eqn:E; auto. specialize (H t E). unfold onq in H. simpl in H. rewrite Nat.eqb_refl in H. rewrite same_sym in H. unfold same in H. simpl in H. discriminate (H eq_refl).
  - assert (ZZ : forall k t p s, gden (GZ k t p) s = fun x => (if x t then cexp p else C1) * s x) by (intros; apply gden_z).
    destruct a as [ka ta pa| | |ta|ca ta|ca ta| | | | | | | | | | | | | | | | | | | |]; try (exfalso; exact Wa); try (exfalso; apply (Na ta); reflexivity);
    destruct b as [kb tb pb| | |tb|cb tb|cb tb| | | | | | | | | | | | | | | | | | | |]; try (exfalso; exact Wb); try (exfalso; apply (Nb tb); reflexivity); rewrite ?ZZ; apply state_ext; intros x; cbn [gden]; try ring.
    + destruct (Nat.eqb_spec ta tb) as [->|N]; [|rewrite upd_other by auto; reflexivity].
      specialize (H tb). unfold onq, same in H. simpl in H. rewrite Nat.eqb_refl, orb_true_r in H. specialize (H eq_refl eq_refl).
      destruct (Nat.eqb_spec tb cb); simpl in H; [simpl in Wb; congruence|discriminate].
    + destruct (Nat.eqb_spec tb ta) as [->|N]; [|rewrite upd_other by auto; reflexivity].
      specialize (H ta). unfold onq, same in H. simpl in H. rewrite Nat.eqb_refl, orb_true_r in H. specialize (H eq_refl eq_refl).
      destruct (Nat.eqb_spec ta ca); simpl in H; [simpl in Wa; congruence|discriminate].
    + simpl in Wa, Wb. assert (N1 : ta <> cb).
      { intros ->. specialize (H cb). unfold onq, same in H. simpl in H. rewrite Nat.eqb_refl in H. rewrite orb_true_r in H. specialize (H eq_refl eq_refl).
        destruct (Nat.eqb_spec cb ca); [congruence|]. destruct (Nat.eqb_spec cb tb); [congruence|]. discriminate. }
      assert (N2 : tb <> ca).
      { intros ->. specialize (H ca). unfold onq, same in H. simpl in H. rewrite Nat.eqb_refl in H. rewrite orb_true_r in H. specialize (H eq_refl eq_refl).
        destruct (Nat.eqb_spec ca cb); [congruence|]. destruct (Nat.eqb_spec ca ta); [congruence|]. discriminate. }
      f_equal. destruct (Nat.eqb_spec ta tb) as [->|N].
      * rewrite !upd_shadow, !upd_same, !upd_other by auto. f_equal. destruct (x tb), (x ca), (x cb); reflexivity.
      * rewrite !(upd_other _ ta), !(upd_other _ tb) by auto. rewrite upd_comm by auto. reflexivity.
    + assert (N : ta <> cb /\ ta <> tb).
      { split; intros ->.
        - specialize (H cb). unfold onq, same in H. simpl in H. rewrite Nat.eqb_refl, orb_true_r in H. specialize (H eq_refl eq_refl). destruct (Nat.eqb_spec cb ca); simpl in *; congruence.
        - specialize (H tb). unfold onq, same in H. simpl in H. rewrite Nat.eqb_refl, !orb_true_r in H. specialize (H eq_refl eq_refl). destruct (Nat.eqb_spec tb ca); simpl in *; congruence. }
      destruct N. rewrite !upd_other by auto. reflexivity.
    + assert (N : tb <> ca /\ tb <> ta).
      { split; intros ->.
        - specialize (H ca). unfold onq, same in H. simpl in H. rewrite Nat.eqb_refl, orb_true_r in H. specialize (H eq_refl eq_refl). destruct (Nat.eqb_spec ca cb); simpl in *; congruence.
        - specialize (H ta). unfold onq, same in H. simpl in H. rewrite Nat.eqb_refl, !orb_true_r in H. specialize (H eq_refl eq_refl). destruct (Nat.eqb_spec ta cb); simpl in *; congruence. }
      destruct N. rewrite !upd_other by auto. reflexivity.
Qed.

(** ** traces *)
Open Scope nat_scope.
Definition ieq (a b : igate) : bool := Nat.eqb (fst a) (fst b) && (if gate_dec (snd a) (snd b) then true else false).
Lemma ieq_spec : forall a b, ieq a b = true <-> a = b.
Proof.
  intros [i a] [j b]. unfold ieq. cbn [fst snd]. rewrite andb_true_iff, Nat.eqb_eq. destruct (gate_dec a b) as [E|E]; split; intros H; try (destruct H; congruence); inversion H; auto.
Qed.
Lemma ieq_refl : forall a, ieq a a = true. Proof. intros. apply ieq_spec. auto. Qed.
Lemma ieq_neq : forall a b, a <> b -> ieq a b = false.
Proof. intros a b N. destruct (ieq a b) eqn:E; auto. apply ieq_spec in E. congruence. Qed.
Lemma ieq_sym : forall a b, ieq a b = ieq b a.
Proof. intros a b. destruct (ieq a b) eqn:E; [apply ieq_spec in E; subst; symmetry; apply ieq_refl|]. symmetry. apply ieq_neq. intros ->. rewrite ieq_refl in E. discriminate. Qed.
Lemma igate_dec : forall a b : igate, {a = b} + {a <> b}.
Proof. intros a b. destruct (ieq a b) eqn:E; [left; apply ieq_spec; auto|right; intros ->; rewrite ieq_refl in E; discriminate]. Qed.

Definition proj (a b : igate) (l : list igate) : list igate := filter (fun x => ieq x a || ieq x b) l.
Definition rem (g : igate) (l : list igate) : list igate := filter (fun x => negb (ieq x g)) l.
Lemma proj_app : forall a b l m, proj a b (l ++ m) = proj a b l ++ proj a b m.
Proof. intros. apply filter_app. Qed.
Lemma proj_cons : forall a b x l, proj a b (x :: l) = proj a b [x] ++ proj a b l.
Proof. intros. change (x :: l) with ([x] ++ l). apply proj_app. Qed.
Lemma proj_in : forall a b l x, In x (proj a b l) <-> In x l /\ (x = a \/ x = b).
Proof. intros. unfold proj. rewrite filter_In, orb_true_iff, !ieq_spec. tauto. Qed.
Lemma filter_none : forall A (f : A -> bool) l, (forall x, In x l -> f x = false) -> filter f l = [].
Proof. induction l as [|x l IH]; intros H; auto. simpl. rewrite (H x) by (left; auto). apply IH. intros; apply H; right; auto. Qed.
Lemma filter_all : forall A (f : A -> bool) l, (forall x, In x l -> f x = true) -> filter f l = l.
Proof. induction l as [|x l IH]; intros H; auto. simpl. rewrite (H x) by (left; auto). f_equal. apply IH. intros; apply H; right; auto. Qed.
Lemma filter_filter : forall A (f g : A -> bool) l, filter f (filter g l) = filter g (filter f l).
Proof. induction l as [|x l IH]; auto. simpl. destruct (f x) eqn:F, (g x) eqn:G; simpl; rewrite ?F, ?G, ?IH; auto. Qed.
Lemma proj_nil : forall a b l, ~ In a l -> ~ In b l -> proj a b l = [].
Proof. intros a b l A B. apply filter_none. intros x H. rewrite !ieq_neq; auto; intros ->; auto. Qed.
Lemma proj_sym : forall a b l, proj a b l = proj b a l.
Proof. intros. unfold proj. apply filter_ext. intros. apply orb_comm. Qed.
Lemma proj_skip : forall a b x, x <> a -> x <> b -> proj a b [x] = [].
Proof. intros. apply proj_nil; simpl; intuition. Qed.
Lemma proj_l : forall a b, proj a b [a] = [a].
Proof. intros. unfold proj. simpl. rewrite ieq_refl. auto. Qed.
Lemma proj_r : forall a b, proj a b [b] = [b].
Proof. intros. rewrite proj_sym. apply proj_l. Qed.
Lemma proj_cl : forall a b l, proj a b (a :: l) = a :: proj a b l.
Proof. intros. rewrite proj_cons, proj_l. auto. Qed.
Lemma proj_cr : forall a b l, proj a b (b :: l) = b :: proj a b l.
Proof. intros. rewrite proj_cons, proj_r. auto. Qed.
Lemma proj_cs : forall a b x l, x <> a -> x <> b -> proj a b (x :: l) = proj a b l.
Proof. intros. rewrite proj_cons, proj_skip; auto. Qed.
(** without [a], only the [b]s are left *)
Lemma proj_only : forall a b l, ~ In a l -> proj a b l = proj b b l.
Proof.
  intros a b l H. unfold proj. induction l as [|x l IH]; auto. simpl. rewrite (ieq_neq x a) by (intros ->; apply H; left; auto). rewrite orb_diag. simpl.
  rewrite IH by (intros K; apply H; right; auto). auto.
Qed.
Lemma rem_app : forall g l m, rem g (l ++ m) = rem g l ++ rem g m. Proof. intros. apply filter_app. Qed.
Lemma rem_in : forall g l x, In x (rem g l) <-> In x l /\ x <> g.
Proof. intros. unfold rem. rewrite filter_In, negb_true_iff. split; intros [A B]; split; auto; [intros ->; rewrite ieq_refl in B; discriminate|apply ieq_neq; auto]. Qed.
Lemma rem_out : forall g l, ~ In g l -> rem g l = l.
Proof. intros. apply filter_all. intros x I. rewrite ieq_neq; auto. intros ->. auto. Qed.
Lemma rem_self : forall g, rem g [g] = [].
Proof. intros. unfold rem. simpl. rewrite ieq_refl. auto. Qed.
Lemma proj_rem : forall a b g l, proj a b (rem g l) = rem g (proj a b l). Proof. intros. apply filter_filter. Qed.
Lemma rem_split : forall g l1 l2, ~ In g l1 -> ~ In g l2 -> rem g (l1 ++ g :: l2) = l1 ++ l2.
Proof. intros. change (g :: l2) with ([g] ++ l2). rewrite !rem_app, rem_self, !rem_out; auto. Qed.
Lemma nodup_split : forall (l1 l2 : list igate) g, NoDup (l1 ++ g :: l2) -> ~ In g l1 /\ ~ In g l2.
Proof. intros l1 l2 g N. apply NoDup_remove_2 in N. rewrite in_app_iff in N. tauto. Qed.
Lemma nodup_rem : forall g l, NoDup l -> NoDup (rem g l). Proof. intros. apply NoDup_filter. auto. Qed.

(** two gates that do not commute on some qubit *)
Definition dep (a b : igate) : Prop := exists q, onq q (snd a) = true /\ onq q (snd b) = true /\ same q (snd a) (snd b) = false.
Definition teq (W W' : list igate) : Prop := forall a b, (a = b \/ dep a b) -> proj a b W = proj a b W'.
Definition wgs (W : list igate) : Prop := forall g, In g W -> wg (snd g).
Definition tden (W : list igate) : state -> state := cden (map snd W).
Lemma tden_app : forall a b s, tden (a ++ b) s = tden b (tden a s).
Proof. intros. unfold tden. rewrite map_app. apply cden_app. Qed.
Lemma teq_refl : forall W, teq W W. Proof. intros W a b _. auto. Qed.
Lemma teq_trans : forall A B C, teq A B -> teq B C -> teq A C.
Proof. intros A B C H K a b D. rewrite (H a b D). apply K; auto. Qed.
Lemma teq_sym : forall A B, teq A B -> teq B A. Proof. intros A B H a b D. symmetry. apply H; auto. Qed.
Lemma teq_app : forall A A' B B', teq A A' -> teq B B' -> teq (A ++ B) (A' ++ B').
Proof. intros A A' B B' H K a b D. rewrite !proj_app, (H a b D), (K a b D). auto. Qed.
Lemma teq_in : forall A B x, teq A B -> In x A -> In x B.
Proof. intros A B x H I. assert (P : In x (proj x x A)) by (apply proj_in; auto). rewrite (H x x (or_introl eq_refl)) in P. apply proj_in in P. tauto. Qed.
Lemma not_dep : forall a b, ~ dep a b -> forall q, onq q (snd a) = true -> onq q (snd b) = true -> same q (snd a) (snd b) = true.
Proof. intros a b N q A B. destruct (same q (snd a) (snd b)) eqn:E; auto. exfalso. apply N. exists q. auto. Qed.
Lemma dep_sym : forall a b, dep a b -> dep b a.
Proof. intros a b [q [A [B C]]]. exists q. rewrite same_sym. auto. Qed.
(** a gate commutes past a list of gates *)
Lemma pass : forall A x s, wg (snd x) -> wgs A -> (forall a, In a A -> ~ dep a x) -> tden (A ++ [x]) s = tden (x :: A) s.
Proof.
  induction A as [|a A IH]; intros x s Wx WA H; auto.
  change (tden ((a :: A) ++ [x]) s) with (tden (A ++ [x]) (gden (snd a) s)). rewrite IH; auto.
  - change (tden A (gden (snd x) (gden (snd a) s)) = tden A (gden (snd a) (gden (snd x) s))). f_equal. apply gates_commute; auto; [apply WA; left; auto|].
    intros q Hx Ha. rewrite same_sym. apply (not_dep a x); auto. apply H. left; auto.
  - intros g I. apply WA. right; auto.
  - intros b I. apply H. right; auto.
Qed.
Theorem teq_den : forall W W' s, wgs W -> wgs W' -> teq W W' -> tden W s = tden W' s.
Proof.
  induction W as [|x W IH]; intros W' s WW WW' T.
  - destruct W' as [|y W']; auto. exfalso. apply (teq_in (y :: W') [] y); [apply teq_sym; auto|left; auto].
  - assert (Ix : In x W') by (apply (teq_in (x :: W)); auto; left; auto).
    assert (SP : exists A B, W' = A ++ x :: B /\ ~ In x A).
    { clear -Ix. induction W' as [|y W' IH]; [destruct Ix|]. destruct (igate_dec y x) as [->|N]; [exists [], W'; auto|].
      destruct Ix as [->|I]; [congruence|]. destruct (IH I) as [A [B [-> NA]]]. exists (y :: A), B. split; auto. intros [E|E]; auto. }
    destruct SP as [A [B [-> NA]]].
    assert (ND : forall a, In a A -> ~ dep a x).
    { intros a Ia D. assert (P := T a x (or_intror D)). rewrite proj_cr, proj_app in P.
      destruct (proj a x A) as [|y r] eqn:EP; [assert (K : In a (proj a x A)) by (apply proj_in; auto); rewrite EP in K; destruct K|].
      simpl in P. inversion P; subst y. assert (K : In x (proj a x A)) by (rewrite EP; left; auto). apply proj_in in K. tauto. }
    transitivity (tden (x :: (A ++ B)) s).
    + change (tden (x :: W) s) with (tden W (gden (snd x) s)). change (tden (x :: A ++ B) s) with (tden (A ++ B) (gden (snd x) s)). apply IH.
      * intros g I. apply WW. right; auto.
      * intros g I. apply WW'. apply in_app_or in I. apply in_or_app. destruct I; [left|right; right]; auto.
      * intros a b D. assert (P := T a b D). rewrite (proj_app a b A (x :: B)) in P. rewrite proj_app.
        destruct (igate_dec x a) as [->|Na]; [|destruct (igate_dec x b) as [->|Nb]].
        -- rewrite !proj_cl in P. assert (E : proj a b A = []).
           { destruct D as [<-|D]; [apply proj_nil; auto|]. apply proj_nil; auto. intros K. apply (ND b K). apply dep_sym. auto. }
           rewrite E in P |- *. cbn [app] in P |- *. injection P as P. exact P.
        -- rewrite !proj_cr in P. assert (E : proj a b A = []).
           { destruct D as [->|D]; [apply proj_nil; auto|]. apply proj_nil; auto. intros K. apply (ND a K). auto. }
           rewrite E in P |- *. cbn [app] in P |- *. injection P as P. exact P.
        -- rewrite !proj_cs in P by auto. exact P.
    + change (x :: A ++ B) with ((x :: A) ++ B). replace (A ++ x :: B) with ((A ++ [x]) ++ B) by (rewrite <- app_assoc; auto).
      rewrite (tden_app (x :: A)), (tden_app (A ++ [x])). f_equal. symmetry. apply pass; [apply WW; left; auto| |exact ND].
      intros g I. apply WW'. apply in_or_app; auto.
Qed.

(** ** the gates of every qubit *)
Record rep (G : nat -> list igate) (W : list igate) : Prop := {
  rep_on : forall q g, In g (G q) -> onq q (snd g) = true;
  rep_pr : forall q a b, onq q (snd a) = true -> onq q (snd b) = true -> a = b \/ same q (snd a) (snd b) = false -> proj a b (G q) = proj a b W }.
Lemma rep_ext : forall G G' W, (forall q, G q = G' q) -> rep G W -> rep G' W.
Proof. intros G G' W E [R1 R2]. split; intros; rewrite <- ?E in *; auto. Qed.
Lemma rep_teq : forall G W W', wgs W -> wgs W' -> rep G W -> rep G W' -> teq W W'.
Proof.
  intros G W W' WW WW' R R' a b [->|[q [A [B C]]]].
  - destruct (in_dec igate_dec b W) as [I|N].
    + destruct (wg_on _ (WW b I)) as [q Q]. rewrite <- (rep_pr _ _ R q), <- (rep_pr _ _ R' q); auto.
    + destruct (in_dec igate_dec b W') as [I'|N'].
      * destruct (wg_on _ (WW' b I')) as [q Q]. rewrite <- (rep_pr _ _ R q), <- (rep_pr _ _ R' q); auto.
      * rewrite !proj_nil; auto.
  - rewrite <- (rep_pr _ _ R q), <- (rep_pr _ _ R' q); auto.
Qed.
Lemma teq_rep : forall G W W', rep G W -> teq W W' -> rep G W'.
Proof.
  intros G W W' [R1 R2] T. split; auto. intros q a b A B D. rewrite (R2 q a b A B D). apply T. destruct D; auto. right. exists q. auto.
Qed.
Lemma rep_in : forall G W q g, rep G W -> onq q (snd g) = true -> (In g (G q) <-> In g W).
Proof.
  intros G W q g R O. assert (P := rep_pr _ _ R q g g O O (or_introl eq_refl)). split; intros I.
  - assert (K : In g (proj g g (G q))) by (apply proj_in; auto). rewrite P in K. apply proj_in in K. tauto.
  - assert (K : In g (proj g g W)) by (apply proj_in; auto). rewrite <- P in K. apply proj_in in K. tauto.
Qed.
Lemma rep_in_w : forall G W q g, rep G W -> In g (G q) -> In g W.
Proof. intros G W q g R I. apply (rep_in G W q g R); auto. apply (rep_on _ _ R); auto. Qed.
Lemma proj_count : forall a l, proj a a l = repeat a (count_occ igate_dec l a).
Proof.
  induction l as [|x l IH]; auto. rewrite proj_cons, IH. simpl count_occ. destruct (igate_dec x a) as [->|N]; [rewrite proj_l; auto|]. rewrite proj_skip by auto. auto.
Qed.
Lemma nodup_count : forall l, NoDup l <-> forall a : igate, count_occ igate_dec l a <= 1.
Proof. intros. apply NoDup_count_occ. Qed.
Lemma rep_nodup : forall G W q, rep G W -> NoDup W -> NoDup (G q).
Proof.
  intros G W q R N. rewrite nodup_count in *. intros a. destruct (in_dec igate_dec a (G q)) as [I|I]; [|rewrite (proj1 (count_occ_not_In igate_dec (G q) a)); auto].
  assert (O := rep_on _ _ R q a I). assert (P := rep_pr _ _ R q a a O O (or_introl eq_refl)). rewrite !proj_count in P.
  apply (f_equal (@length _)) in P. rewrite !repeat_length in P. specialize (N a). lia.
Qed.
Lemma rep_nil : rep (fun _ => []) []. Proof. split; [intros q g []|auto]. Qed.

Lemma rep_rem : forall G W g, rep G W -> rep (fun q => rem g (G q)) (rem g W).
Proof.
  intros G W g [R1 R2]. split.
  - intros q x I. apply rem_in in I. apply R1. tauto.
  - intros q a b A B D. rewrite !proj_rem, (R2 q a b); auto.
Qed.
(** insert a new gate, somewhere *)
Lemma rep_insert : forall G G' P R x, NoDup (P ++ R) -> rep G (P ++ R) -> ~ In x (P ++ R) ->
  (forall q, onq q (snd x) = false -> G' q = G q) ->
  (forall q, onq q (snd x) = true -> exists l1 l2, G q = l1 ++ l2 /\ G' q = l1 ++ x :: l2 /\
     forall b, onq q (snd b) = true -> same q (snd x) (snd b) = false -> (In b l2 <-> In b R)) ->
  rep G' (P ++ x :: R).
Proof.
  intros G G' P R x N RP NX H0 H1. assert (NXq : forall q, ~ In x (G q)) by (intros q I; apply NX; apply (rep_in_w _ _ _ _ RP I)). split.
  - intros q g I. destruct (onq q (snd x)) eqn:O.
    + destruct (H1 q O) as [l1 [l2 [E [E' _]]]]. rewrite E' in I. destruct (igate_dec g x) as [->|Ng]; auto. apply (rep_on _ _ RP). rewrite E.
      apply in_app_or in I. apply in_or_app. destruct I as [I|[I|I]]; auto. congruence.
    + rewrite (H0 q O) in I. apply (rep_on _ _ RP); auto.
  - assert (K : forall q b, onq q (snd x) = true -> onq q (snd b) = true -> (x = b \/ same q (snd x) (snd b) = false) -> proj x b (G' q) = proj x b (P ++ x :: R)).
    { intros q b Oq Ob D. destruct (H1 q Oq) as [l1 [l2 [E [-> HR]]]].
      assert (Nl : ~ In x l1 /\ ~ In x l2) by (specialize (NXq q); rewrite E, in_app_iff in NXq; tauto).
      assert (Nw : ~ In x P /\ ~ In x R) by (rewrite in_app_iff in NX; tauto).
      rewrite !proj_app, !proj_cl.
      destruct (igate_dec b x) as [->|Nb]; [rewrite !proj_nil by tauto; auto|].
      assert (S : same q (snd x) (snd b) = false) by (destruct D; auto; congruence). specialize (HR b Ob S).
      rewrite (proj_only x b l1), (proj_only x b l2), (proj_only x b P), (proj_only x b R) by tauto. assert (PB := rep_pr _ _ RP q b b Ob Ob (or_introl eq_refl)). rewrite E, !proj_app in PB.
      assert (NL : NoDup (l1 ++ l2)) by (rewrite <- E; apply (rep_nodup G (P ++ R)); auto).
      assert (C1 : count_occ igate_dec l1 b + count_occ igate_dec l2 b = count_occ igate_dec P b + count_occ igate_dec R b).
      { rewrite !proj_count in PB. apply (f_equal (@length _)) in PB. rewrite !app_length, !repeat_length in PB. auto. }
      apply NoDup_count_occ with (decA := igate_dec) (x := b) in NL. apply NoDup_count_occ with (decA := igate_dec) (x := b) in N.
      rewrite count_occ_app in NL, N. rewrite !(count_occ_In igate_dec) in HR. rewrite !proj_count.
      assert (C2 : count_occ igate_dec l2 b = count_occ igate_dec R b) by lia. assert (C3 : count_occ igate_dec l1 b = count_occ igate_dec P b) by lia. rewrite C2, C3. auto. }
    intros q a b A B D. destruct (igate_dec a x) as [->|Na]; [apply K; auto|]. destruct (igate_dec b x) as [->|Nb].
    + rewrite !(proj_sym a x). apply K; auto. rewrite same_sym. destruct D; auto.
    + assert (E : proj a b (G' q) = proj a b (G q)).
      { destruct (onq q (snd x)) eqn:O; [|rewrite H0; auto]. destruct (H1 q O) as [l1 [l2 [-> [-> _]]]]. rewrite !proj_app, proj_cs; auto. }
      rewrite E, (rep_pr _ _ RP q a b A B D). rewrite !proj_app, proj_cs; auto.
Qed.
Lemma rep_app1 : forall G G' W x, NoDup W -> rep G W -> ~ In x W ->
  (forall q, G' q = if onq q (snd x) then G q ++ [x] else G q) -> rep G' (W ++ [x]).
Proof.
  intros G G' W x N R NX H. apply (rep_insert G G' W [] x); rewrite ?app_nil_r; auto.
  - intros q O. rewrite H, O. auto.
  - intros q O. exists (G q), []. rewrite app_nil_r, H, O. repeat split; auto; intros [].
Qed.
(** a gate behind which only commuting gates follow *)
Definition lastable (G : nat -> list igate) (g : igate) : Prop :=
  forall q, onq q (snd g) = true -> exists l1 l2, G q = l1 ++ g :: l2 /\ forall h, In h l2 -> same q (snd g) (snd h) = true.
Lemma move_last : forall G W g, NoDup W -> wgs W -> rep G W -> In g W -> lastable G g -> teq W (rem g W ++ [g]).
Proof.
  intros G W g N WW R I L.
  assert (K : forall q b, onq q (snd g) = true -> onq q (snd b) = true -> (g = b \/ same q (snd g) (snd b) = false) -> proj g b W = proj g b (rem g W ++ [g])).
  { intros q b Og Ob D. destruct (L q Og) as [l1 [l2 [E H]]]. assert (NG := rep_nodup _ _ q R N). rewrite E in NG. apply nodup_split in NG. destruct NG as [N1 N2].
    assert (P := rep_pr _ _ R q g b Og Ob D). rewrite E, proj_app, proj_cl in P.
    assert (E2 : proj g b l2 = []) by (apply proj_nil; auto; destruct D as [<-|D]; auto; intros J; rewrite (H b J) in D; discriminate).
    rewrite E2 in P. rewrite proj_app, proj_l, proj_rem, <- P, rem_app, rem_self, rem_out, app_nil_r; auto. intros J. apply proj_in in J. tauto. }
  intros a b D. destruct (igate_dec a g) as [->|Na].
  - destruct D as [<-|[q [A [B C]]]]; [|apply (K q); auto]. destruct (wg_on _ (WW g I)) as [q Q]. apply (K q); auto.
  - destruct (igate_dec b g) as [->|Nb].
    + rewrite !(proj_sym a g). destruct D as [E|[q [A [B C]]]]; [congruence|]. apply (K q); auto. rewrite same_sym. auto.
    + rewrite proj_app, proj_skip, proj_rem, rem_out, app_nil_r; auto. intros J. apply proj_in in J. destruct J as [_ [J|J]]; congruence.
Qed.
(** a gate before which only commuting gates stand *)
Definition firstable (G : nat -> list igate) (g : igate) : Prop :=
  forall q, onq q (snd g) = true -> exists l1 l2, G q = l1 ++ g :: l2 /\ forall h, In h l1 -> same q (snd g) (snd h) = true.
Lemma move_first : forall G W g, NoDup W -> wgs W -> rep G W -> In g W -> firstable G g -> teq W (g :: rem g W).
Proof.
  intros G W g N WW R I L.
  assert (K : forall q b, onq q (snd g) = true -> onq q (snd b) = true -> (g = b \/ same q (snd g) (snd b) = false) -> proj g b W = proj g b (g :: rem g W)).
  { intros q b Og Ob D. destruct (L q Og) as [l1 [l2 [E H]]]. assert (NG := rep_nodup _ _ q R N). rewrite E in NG. apply nodup_split in NG. destruct NG as [N1 N2].
    assert (P := rep_pr _ _ R q g b Og Ob D). rewrite E, proj_app, proj_cl in P.
    assert (E2 : proj g b l1 = []) by (apply proj_nil; auto; destruct D as [<-|D]; auto; intros J; rewrite (H b J) in D; discriminate).
    rewrite E2 in P. rewrite proj_cl, proj_rem, <- P. cbn [app]. f_equal. change (g :: proj g b l2) with ([g] ++ proj g b l2).
    rewrite rem_app, rem_self, rem_out; auto. intros J. apply proj_in in J. tauto. }
  intros a b D. destruct (igate_dec a g) as [->|Na].
  - destruct D as [<-|[q [A [B C]]]]; [|apply (K q); auto]. destruct (wg_on _ (WW g I)) as [q Q]. apply (K q); auto.
  - destruct (igate_dec b g) as [->|Nb].
    + rewrite !(proj_sym a g). destruct D as [E|[q [A [B C]]]]; [congruence|]. apply (K q); auto. rewrite same_sym. auto.
    + rewrite proj_cs, proj_rem, rem_out; auto. intros J. apply proj_in in J. destruct J as [_ [J|J]]; congruence.
Qed.
(** a gate that comes later in the list and does not commute comes later on the qubit *)
Lemma later_q : forall G P R g h q l1 l2, NoDup (P ++ g :: R) -> rep G (P ++ g :: R) -> In h R -> onq q (snd g) = true -> onq q (snd h) = true ->
  same q (snd g) (snd h) = false -> G q = l1 ++ g :: l2 -> In h l2.
Proof.
  intros G P R g h q l1 l2 N RP I Og Oh S E. assert (X := rep_pr _ _ RP q g h Og Oh (or_intror S)).
  assert (NG := rep_nodup _ _ q RP N). destruct (nodup_split _ _ _ N) as [NP NR]. rewrite E in NG. destruct (nodup_split _ _ _ NG) as [N1 N2].
  assert (NhP : ~ In h P). { intros J. apply in_split in I. destruct I as [r1 [r2 ->]]. apply NoDup_remove_1 in N. change (P ++ r1 ++ h :: r2) with (P ++ (r1 ++ h :: r2)) in N. rewrite app_assoc in N. apply NoDup_remove_2 in N. apply N. rewrite !in_app_iff. auto. }
  rewrite E, !proj_app, !proj_cl in X. rewrite (proj_nil g h P) in X by auto. cbn [app] in X.
  destruct (proj g h l1) as [|y r] eqn:E1.
  - cbn [app] in X. inversion X as [X1]. assert (J : In h (proj g h R)) by (apply proj_in; auto). rewrite <- X1 in J. apply proj_in in J. tauto.
  - cbn [app] in X. inversion X; subst y. assert (J : In g (proj g h l1)) by (rewrite E1; left; auto). apply proj_in in J. tauto.
Qed.
