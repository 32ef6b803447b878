(** Moving a gate on two qubits to the front of a list of gates, past Hadamards *)
From Coq Require Import Reals ZArith QArith Qcanon List Bool Arith Lia.
From Verif Require Import LinModel PermModel CNum Base ScalarModel GateModel OptModel GraphSem SumLemmas CircSpec GateProofs GateDecomp OptTrace OptSem.
Import ListNotations.
Open Scope nat_scope.

(** the commutation type of a gate at a qubit: [false] for Z, [true] for X *)
Definition mt (q : nat) (b : bool) (g : gate) : bool := if b then xt q g else zt q g.
(** the interaction of the qubits [u] and [v] that has type [a] at [u] and type [b] at [v] *)
Definition den2 (u v : nat) (a b : bool) (s : state) : state :=
  match a, b with
  | false, false => gden (GCZ u v) s
  | false, true => gden (GCNOT u v) s
  | true, false => gden (GCNOT v u) s
  | true, true => gden (GHAD u) (gden (GCNOT u v) (gden (GHAD u) s))
  end.
Lemma on1 : forall q k t p, onq q (GZ k t p) = Nat.eqb q t. Proof. intros. unfold onq. simpl. apply orb_false_r. Qed.
Lemma mt_same : forall q b x y, mt q b x = true -> mt q b y = true -> same q x y = true.
Proof. intros q [] x y A B; unfold mt, same in *; rewrite A, B; simpl; auto. apply orb_true_r. Qed.
Lemma mt_had : forall q b t, mt q b (GHAD t) = false. Proof. intros q [] t; auto. Qed.
Lemma mt_on : forall q b g, mt q b g = true -> onq q g = true.
Proof.
  intros q [] g H; destruct g; cbn in H; try discriminate; unfold onq; cbn; rewrite ?orb_false_r, ?H, ?orb_true_r; auto.
Qed.
(** a gate has one type only at a qubit *)
Lemma mt_both : forall q g, wg g -> zt q g = true -> xt q g = true -> False.
Proof. intros q g W A B. destruct g; cbn in *; try discriminate. apply Nat.eqb_eq in A, B. subst. auto. Qed.

Lemma den2_pass : forall u v a b w s, u <> v -> wg w -> (onq u w = true -> mt u a w = true) -> (onq v w = true -> mt v b w = true) ->
  den2 u v a b (gden w s) = gden w (den2 u v a b s).
Proof.
  intros u v a b w s N W A B.
  assert (S2 : forall q g, (q = u \/ q = v) -> onq q w = true -> (q = u -> mt u a g = true) -> (q = v -> mt v b g = true) -> same q g w = true).
  { intros q g [->| ->] O Hu Hv.
    - apply (mt_same u a); auto.
    - apply (mt_same v b); auto. }
  destruct a, b; unfold den2.
  - destruct (onq u w) eqn:O.
    + specialize (A eq_refl). unfold mt in A. destruct w; cbn in A; try discriminate. apply Nat.eqb_eq in A. subst target. cbn in W.
      assert (Nv : control <> v). { intros ->. specialize (B ltac:(rewrite on2, Nat.eqb_refl; auto)). cbn in B. apply Nat.eqb_eq in B. congruence. }
      rewrite <- (cz_had control u s) by auto. rewrite (gates_commute (GCNOT u v) (GCZ control u)).
      * rewrite <- (cnot_had control u) by auto. auto.
      * exact N.
      * exact W.
      * intros q. rewrite on2, on2z. unfold same. cbn [zt xt]. intros O1 O2. destruct (Nat.eqb_spec q u) as [Eu|Eu]; [rewrite orb_true_r; auto|]. destruct (Nat.eqb_spec q v) as [Ev|Ev]; [|discriminate].
        destruct (Nat.eqb_spec q control); [congruence|]. discriminate.
    + rewrite (had_comm u w s) by auto. rewrite (gates_commute (GCNOT u v) w); [|exact N|exact W|].
      * apply had_comm; auto.
      * intros q. rewrite on2. intros O1 O2. destruct (Nat.eqb_spec q u) as [Eu|Eu]; [congruence|]. destruct (Nat.eqb_spec q v) as [Ev|Ev]; [|discriminate]. subst q. apply (mt_same v true); [cbn; apply Nat.eqb_refl|auto].
  - apply gates_commute; auto. { exact (fun e => N (eq_sym e)). } intros q. rewrite on2. intros O1 O2. apply S2; auto.
    + destruct (Nat.eqb_spec q v), (Nat.eqb_spec q u); auto; discriminate.
    + intros ->. cbn. apply Nat.eqb_refl.
    + intros ->. cbn. apply Nat.eqb_refl.
  - apply gates_commute; auto. intros q. rewrite on2. intros O1 O2. apply S2; auto.
    + destruct (Nat.eqb_spec q v), (Nat.eqb_spec q u); auto; discriminate.
    + intros ->. cbn. apply Nat.eqb_refl.
    + intros ->. cbn. apply Nat.eqb_refl.
  - apply gates_commute; auto. intros q. rewrite on2z. intros O1 O2. apply S2; auto.
    + destruct (Nat.eqb_spec q v), (Nat.eqb_spec q u); auto; discriminate.
    + intros ->. cbn. rewrite Nat.eqb_refl. auto.
    + intros ->. cbn. rewrite Nat.eqb_refl. apply orb_true_r.
Qed.
Lemma den2_had_l : forall u v a b s, u <> v -> den2 u v a b (gden (GHAD u) s) = gden (GHAD u) (den2 u v (negb a) b s).
Proof.
  intros u v a b s N. destruct a, b; cbn [negb den2].
  - rewrite had_had. auto.
  - rewrite cnot_had by auto. rewrite cz_sym. auto.
  - rewrite had_had. auto.
  - rewrite cz_sym, cz_had by auto. auto.
Qed.
Lemma den2_had_r : forall u v a b s, u <> v -> den2 u v a b (gden (GHAD v) s) = gden (GHAD v) (den2 u v a (negb b) s).
Proof.
  intros u v a b s N.
  assert (E : forall s, gden (GCNOT v u) (gden (GHAD v) s) = gden (GHAD v) (gden (GHAD u) (gden (GCNOT u v) (gden (GHAD u) s)))).
  { intros r. rewrite <- (cnot_had2 v u (gden (GHAD u) r)) by auto. rewrite had_had. auto. }
  destruct a, b; cbn [negb den2].
  - specialize (E (gden (GHAD v) s)). rewrite had_had in E. rewrite E, had_had. auto.
  - apply E.
  - apply cnot_had. auto.
  - apply cz_had. auto.
Qed.

(** [lane q b' A b]: an interaction that has type [b] at [q] can be moved to the front of
    [A], where it has type [b'] *)
Fixpoint lane (q : nat) (b' : bool) (A : list igate) (b : bool) : Prop :=
  match A with
  | [] => b' = b
  | x :: A => if onq q (snd x) then (mt q b' (snd x) = true /\ lane q b' A b) \/ (snd x = GHAD q /\ lane q (negb b') A b) else lane q b' A b
  end.
Theorem move2 : forall u v a b A a' b' s, u <> v -> wgs A -> lane u a' A a -> lane v b' A b ->
  den2 u v a b (tden A s) = tden A (den2 u v a' b' s).
Proof.
  intros u v a b A. induction A as [|x A IH]; intros a' b' s N W Lu Lv.
  - cbn in Lu, Lv. subst. auto.
  - assert (Wx : wg (snd x)) by (apply W; left; auto). assert (WA : wgs A) by (intros g H; apply W; right; auto).
    change (tden (x :: A) ?r) with (tden A (gden (snd x) r)). cbn [lane] in Lu, Lv.
    destruct (onq u (snd x)) eqn:Ou; [destruct Lu as [[Mu Lu]|[Eu Lu]]|].
    + destruct (onq v (snd x)) eqn:Ov; [destruct Lv as [[Mv Lv]|[Ev Lv]]|].
      * rewrite (IH a' b') by auto. rewrite den2_pass; auto.
      * rewrite Ev, mt_had in Mu. discriminate.
      * rewrite (IH a' b') by auto. rewrite den2_pass; auto. congruence.
    + assert (Ov : onq v (snd x) = false). { rewrite Eu, on_had. apply Nat.eqb_neq. auto. }
      rewrite Ov in Lv. rewrite (IH (negb a') b') by auto. rewrite Eu, den2_had_l, negb_involutive by auto. auto.
    + destruct (onq v (snd x)) eqn:Ov; [destruct Lv as [[Mv Lv]|[Ev Lv]]|].
      * rewrite (IH a' b') by auto. rewrite den2_pass; auto. congruence.
      * rewrite (IH a' (negb b')) by auto. rewrite Ev, den2_had_r, negb_involutive by auto. auto.
      * rewrite (IH a' b') by auto. rewrite den2_pass; auto; congruence.
Qed.

(** the gates on one qubit *)
Definition lq (q : nat) (L : list igate) : list igate := filter (fun g => onq q (snd g)) L.
Lemma lq_in : forall q L g, In g (lq q L) <-> In g L /\ onq q (snd g) = true.
Proof. intros. unfold lq. apply filter_In. Qed.
Lemma lq_app : forall q A B, lq q (A ++ B) = lq q A ++ lq q B. Proof. intros. apply filter_app. Qed.
Lemma lq_cons : forall q g A, lq q (g :: A) = if onq q (snd g) then g :: lq q A else lq q A. Proof. auto. Qed.
Lemma lane_lq : forall q A b' b, lane q b' (lq q A) b <-> lane q b' A b.
Proof.
  intros q A. induction A as [|x A IH]; intros b' b; [tauto|]. unfold lq. cbn [filter lane]. fold (lq q A). destruct (onq q (snd x)) eqn:O; [cbn [lane]; rewrite O|]; rewrite ?IH; tauto.
Qed.
Lemma lane_rem : forall q g A b' b, (forall t, snd g <> GHAD t) -> lane q b' A b -> lane q b' (rem g A) b.
Proof.
  intros q g A. induction A as [|x A IH]; intros b' b N H; auto. unfold rem. cbn [filter]. fold (rem g A). cbn [lane] in H. destruct (ieq x g) eqn:E; cbn [negb].
  - apply ieq_spec in E. subst. destruct (onq q (snd g)); [|auto]. destruct H as [[_ H]|[H _]]; auto. exfalso. apply (N q); auto.
  - cbn [lane]. destruct (onq q (snd x)); [|auto]. destruct H as [[M H]|[M H]]; auto.
Qed.
Lemma lane_typed : forall q b A, (forall a, In a A -> mt q b (snd a) = true) -> lane q b A b.
Proof.
  intros q b A. induction A as [|x A IH]; intros H; [reflexivity|]. cbn [lane]. rewrite (mt_on q b) by (apply H; left; auto). left. split; [apply H; left; auto|]. apply IH. intros; apply H; right; auto.
Qed.
Lemma lane_had : forall q b b' X h Y, snd h = GHAD q -> (forall a, In a X -> mt q b' (snd a) = true) -> lane q (negb b') Y b -> lane q b' (X ++ h :: Y) b.
Proof.
  intros q b b' X h Y E. induction X as [|x X IH]; intros H K.
  - cbn [app lane]. rewrite E, on_had, Nat.eqb_refl. right. auto.
  - cbn [app lane]. rewrite (mt_on q b') by (apply H; left; auto). left. split; [apply H; left; auto|]. apply IH; auto. intros; apply H; right; auto.
Qed.

(** the part of the list before [g] *)
Fixpoint before (g : igate) (L : list igate) : list igate := match L with [] => [] | x :: L => if ieq x g then [] else x :: before g L end.
Lemma before_split : forall g L, In g L -> exists B, L = before g L ++ g :: B.
Proof.
  intros g L. induction L as [|x L IH]; intros H; [destruct H|]. cbn [before]. destruct (ieq x g) eqn:E.
  - apply ieq_spec in E. subst. exists L. auto.
  - destruct H as [->|H]; [rewrite ieq_refl in E; discriminate|]. destruct (IH H) as [B EB]. exists B. cbn [app]. f_equal. auto.
Qed.
Lemma before_not : forall g L, ~ In g (before g L).
Proof. intros g L. induction L as [|x L IH]; auto. cbn [before]. destruct (ieq x g) eqn:E; auto. intros [->|H]; auto. rewrite ieq_refl in E. discriminate. Qed.
Lemma before_incl : forall g L a, In a (before g L) -> In a L.
Proof. intros g L. induction L as [|x L IH]; intros a H; auto. cbn [before] in H. destruct (ieq x g); [destruct H|]. destruct H as [->|H]; [left|right]; auto. Qed.
Lemma before_app : forall g X Y, ~ In g X -> before g (X ++ g :: Y) = X.
Proof.
  intros g X Y. induction X as [|x X IH]; intros H; cbn [app before]; [rewrite ieq_refl; auto|]. rewrite ieq_neq by (intros ->; apply H; left; auto). f_equal. apply IH. intros K. apply H. right; auto.
Qed.
Lemma before_lq : forall q g L, onq q (snd g) = true -> before g (lq q L) = lq q (before g L).
Proof.
  intros q g L O. induction L as [|x L IH]; auto. unfold lq. cbn [filter before]. fold (lq q L). destruct (ieq x g) eqn:E.
  - apply ieq_spec in E. subst. rewrite O. cbn [before]. rewrite ieq_refl. auto.
  - cbn [filter]. fold (lq q (before g L)). destruct (onq q (snd x)); cbn [before]; rewrite ?E, IH; auto.
Qed.
Lemma before_rem : forall g x L, x <> g -> before g (rem x L) = rem x (before g L).
Proof.
  intros g x L N. induction L as [|y L IH]; auto. unfold rem. cbn [filter before]. fold (rem x L). destruct (ieq y g) eqn:E.
  - apply ieq_spec in E. subst. rewrite ieq_neq by auto. cbn [negb before]. rewrite ieq_refl. auto.
  - cbn [filter]. fold (rem x (before g L)). destruct (ieq y x); cbn [negb before]; rewrite ?E, IH; auto.
Qed.
Lemma tden_cons : forall x A s, tden (x :: A) s = tden A (gden (snd x) s). Proof. auto. Qed.
(** ** [g] becomes [g'] at the front *)
Definition movable (g : igate) (g' : gate) (L : list igate) : Prop :=
  exists u v a b a' b', u <> v /\ (forall s, gden (snd g) s = den2 u v a b s) /\ (forall s, gden g' s = den2 u v a' b' s) /\
    lane u a' (before g L) a /\ lane v b' (before g L) b.
Lemma movable_rem : forall g g' x L, x <> g -> (forall t, snd x <> GHAD t) -> movable g g' L -> movable g g' (rem x L).
Proof.
  intros g g' x L N T [u [v [a [b [a' [b' [H [E [E' [Lu Lv]]]]]]]]]]. exists u, v, a, b, a', b'. rewrite before_rem by auto. repeat split; auto; apply lane_rem; auto.
Qed.
Theorem movable_den : forall g g' L i s, wgs L -> NoDup L -> In g L -> movable g g' L -> tden L s = tden ((i, g') :: rem g L) s.
Proof.
  intros g g' L i s W ND Hg [u [v [a [b [a' [b' [H [E [E' [Lu Lv]]]]]]]]]]. destruct (before_split g L Hg) as [B EB]. set (A := before g L) in *.
  assert (R : rem g L = A ++ B). { rewrite EB. apply rem_split; rewrite EB in ND; apply nodup_split in ND; tauto. }
  rewrite R, EB, tden_cons, !tden_app. rewrite tden_cons, E. cbn [snd]. rewrite E'. rewrite (move2 u v a b A a' b'); auto. intros x Hx. apply W. apply (before_incl g). auto.
Qed.
(** a gate that commutes with all the gates before it *)
Definition front (g : igate) (L : list igate) : Prop := forall a q, In a (before g L) -> onq q (snd a) = true -> onq q (snd g) = true -> same q (snd a) (snd g) = true.
Lemma front_rem : forall g x L, x <> g -> front g L -> front g (rem x L).
Proof. intros g x L N F a q Ha. rewrite before_rem in Ha by auto. apply rem_in in Ha. apply F. tauto. Qed.
Theorem front_den : forall g L s, wgs L -> NoDup L -> In g L -> front g L -> tden L s = tden (g :: rem g L) s.
Proof.
  intros g L s W ND Hg F. destruct (before_split g L Hg) as [B EB]. set (A := before g L) in *.
  assert (R : rem g L = A ++ B). { rewrite EB. apply rem_split; rewrite EB in ND; apply nodup_split in ND; tauto. }
  rewrite R. rewrite EB. change (A ++ g :: B) with (A ++ [g] ++ B). rewrite app_assoc. rewrite (tden_app (A ++ [g])). change (g :: A ++ B) with ((g :: A) ++ B). rewrite (tden_app (g :: A)). f_equal.
  apply pass; auto.
  - intros x Hx. apply W. apply (before_incl g). auto.
  - intros x Hx [q [O1 [O2 K]]]. rewrite (F x q) in K; auto. discriminate.
Qed.
(** two Hadamards on one qubit with no gate in between *)
Theorem had2_den : forall q h g X Y L s, wgs L -> NoDup L -> lq q L = X ++ h :: g :: Y -> snd h = GHAD q -> snd g = GHAD q -> tden L s = tden (rem g (rem h L)) s.
Proof.
  intros q h g X Y L s W ND E Eh Eg.
  assert (Ih : In h L) by (apply (lq_in q); rewrite E; apply in_or_app; right; left; auto).
  assert (Ig : In g L) by (apply (lq_in q); rewrite E; apply in_or_app; right; right; left; auto).
  assert (NDq : NoDup (lq q L)) by (apply NoDup_filter; auto). rewrite E in NDq.
  assert (Nhg : h <> g). { intros ->. apply NoDup_remove_2 in NDq. apply NDq. apply in_or_app. right; left; auto. }
  assert (NX : ~ In h X /\ ~ In g X). { split; intros K; [apply NoDup_remove_2 in NDq; apply NDq; apply in_or_app; auto|]. change (X ++ h :: g :: Y) with (X ++ [h] ++ g :: Y) in NDq. rewrite app_assoc in NDq. apply NoDup_remove_2 in NDq. apply NDq. apply in_or_app. left. apply in_or_app. auto. }
  destruct (before_split h L Ih) as [B EB]. set (A := before h L) in *.
  assert (RA : rem h L = A ++ B). { rewrite EB. apply rem_split; rewrite EB in ND; apply nodup_split in ND; tauto. }
  assert (QA : lq q A = X). { unfold A. rewrite <- before_lq by (rewrite Eh, on_had, Nat.eqb_refl; auto). rewrite E. apply before_app. tauto. }
  assert (QB : lq q B = g :: Y). { assert (K := E). rewrite EB, lq_app, lq_cons in K. rewrite QA, Eh, on_had, Nat.eqb_refl in K. apply app_inv_head in K. inversion K. auto. }
  assert (Ib : In g B) by (apply (lq_in q); rewrite QB; left; auto).
  destruct (before_split g B Ib) as [D ED]. set (M := before g B) in *.
  assert (QM : lq q M = []). { unfold M. rewrite <- before_lq by (rewrite Eg, on_had, Nat.eqb_refl; auto). rewrite QB. apply (before_app g []). auto. }
  assert (NDB : NoDup (A ++ B)) by (rewrite <- RA; apply nodup_rem; auto).
  assert (RB : rem g (A ++ B) = A ++ M ++ D). { rewrite ED, app_assoc in NDB |- *. rewrite rem_split; [rewrite <- app_assoc; auto| |]; apply nodup_split in NDB; tauto. }
  rewrite RA, RB. rewrite EB, ED. change (A ++ h :: M ++ g :: D) with (A ++ (h :: M ++ g :: D)). rewrite !(tden_app A). rewrite tden_cons, !(tden_app M), tden_cons, Eg, Eh. f_equal.
  set (r := tden A s). assert (WM : wgs M). { intros x Hx. apply W. rewrite EB. apply in_or_app. right; right. apply (before_incl g). auto. }
  assert (P : forall r, tden M (gden (GHAD q) r) = gden (GHAD q) (tden M r)).
  { intros r'. change (tden M (gden (GHAD q) r')) with (tden ((0, GHAD q) :: M) r'). rewrite <- pass; auto; [rewrite tden_app; auto|exact I|]. intros a Ha [q' [O1 [O2 _]]]. cbn [snd] in O2. rewrite on_had in O2. apply Nat.eqb_eq in O2. rewrite O2 in O1. assert (K : In a (lq q M)) by (apply lq_in; auto). rewrite QM in K. destruct K. }
  rewrite P, had_had. auto.
Qed.
