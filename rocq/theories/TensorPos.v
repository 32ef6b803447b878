(** Bookkeeping of axes: labels, positions and pop_and_shift *)
From Coq Require Import Reals ZArith QArith Qcanon List Bool Arith Lia Permutation Sorted FunctionalExtensionality.
From Verif Require Import CNum Base ScalarModel ScalarProofs GraphModel RulesModel GraphSem SumLemmas RuleLemmas TensorModel TensorNp TensorSpider.
Import ListNotations.
Open Scope nat_scope.

(** ** Sorting *)
Lemma ins_perm : forall A (lt : A -> A -> bool) x l, Permutation (ins lt x l) (x :: l).
Proof. induction l as [|y l IH]; cbn; auto. destruct (lt x y); auto. rewrite IH. apply perm_swap. Qed.
Lemma sorted_perm : forall A (lt : A -> A -> bool) l, Permutation (sorted lt l) l.
Proof. induction l as [|x l IH]; cbn; auto. rewrite ins_perm. constructor; auto. Qed.
Lemma sorted_in : forall A (lt : A -> A -> bool) l x, In x (sorted lt l) <-> In x l.
Proof. intros. split; apply Permutation_in; [|symmetry]; apply sorted_perm. Qed.
Lemma sorted_strict : forall A (lt : A -> A -> bool), (forall a b c, lt a b = true -> lt b c = true -> lt a c = true) -> (forall a b, a <> b -> lt a b = false -> lt b a = true) ->
  forall l, NoDup l -> StronglySorted (fun a b => lt a b = true) (sorted lt l).
Proof.
  intros A lt T O l N. induction N as [|x l NI N IH]; [constructor|]. cbn [sorted fold_right]. fold (sorted lt l).
  assert (NI' : ~ In x (sorted lt l)) by (rewrite sorted_in; auto). revert NI'. induction IH as [|y s S IH F]; intros NI'; cbn [ins]; [repeat constructor|].
  destruct (lt x y) eqn:E.
  - constructor; [constructor; auto|]. constructor; auto. eapply Forall_impl; [|exact F]. intros a H. eapply T; eauto.
  - assert (lt y x = true) by (apply O; auto; intros ->; apply NI'; left; auto). constructor; [apply IH; intros I; apply NI'; right; auto|].
    apply Forall_forall. intros z Hz. apply (Permutation_in _ (ins_perm _ _ _ _)) in Hz. destruct Hz as [<-|Hz]; auto. rewrite Forall_forall in F. auto.
Qed.
Lemma ltb_strict : forall l, NoDup l -> StronglySorted (fun a b => Nat.ltb a b = true) (sorted Nat.ltb l).
Proof. apply sorted_strict; intros *; rewrite ?Nat.ltb_lt, ?Nat.ltb_ge; lia. Qed.
Lemma qltb_lt : forall a b, qltb a b = true <-> (a < b)%Qc.
Proof.
  intros. unfold qltb. rewrite negb_true_iff. split; intros H.
  - apply Qcnot_le_lt. intros L. apply Qle_bool_iff in L. congruence.
  - destruct (Qle_bool _ _) eqn:E; auto. apply Qle_bool_iff in E. exfalso. eapply Qclt_not_le; eauto.
Qed.
Lemma qltb_strict : forall l, NoDup l -> StronglySorted (fun a b => qltb a b = true) (sorted qltb l).
Proof.
  apply sorted_strict; intros a b.
  - intros c. rewrite !qltb_lt. apply Qclt_trans.
  - intros N H. apply qltb_lt. apply Qcnot_le_lt. intros L. apply Qcle_lt_or_eq in L. destruct L as [L|L]; auto. apply qltb_lt in L. congruence.
Qed.

(** ** The order in which the vertices are handled *)
Definition order (g : graph) : list nat := concat (row_list g).
Lemma has_row_iff : forall g r v, has_row g r v = true <-> row g v = r.
Proof. intros. unfold has_row. apply qeqb_eq. Qed.
Lemma order_in : forall g v, In v (order g) <-> In v (vertices g).
Proof.
  intros g v. unfold order, row_list. rewrite in_concat. split.
  - intros [l [I J]]. apply in_map_iff in I. destruct I as [r [<- _]]. rewrite sorted_in in J. apply filter_In in J. tauto.
  - intros H. exists (sorted Nat.ltb (filter (has_row g (row g v)) (vertices g))). split.
    + apply in_map_iff. exists (row g v). split; auto. rewrite sorted_in. apply nodup_In. apply in_map; auto.
    + rewrite sorted_in. apply filter_In. split; auto. apply has_row_iff; auto.
Qed.
Lemma ss_app : forall A (R : A -> A -> Prop) l1 l2, StronglySorted R l1 -> StronglySorted R l2 -> (forall a b, In a l1 -> In b l2 -> R a b) -> StronglySorted R (l1 ++ l2).
Proof.
  intros A R l1 l2 S1 S2 H. induction S1 as [|a l1 S1 IH F]; auto. cbn. constructor; [apply IH; intros; apply H; auto; right; auto|].
  apply Forall_app. split; auto. apply Forall_forall. intros b I. apply H; auto. left; auto.
Qed.
Lemma ss_impl : forall A (R S : A -> A -> Prop) l, StronglySorted R l -> (forall a b, In a l -> In b l -> R a b -> S a b) -> StronglySorted S l.
Proof.
  intros A R S l H. induction H as [|a l H IH F]; intros I; [constructor|]. constructor; [apply IH; intros; apply I; auto; right; auto|].
  rewrite Forall_forall in *. intros b J. apply I; auto; [left|right]; auto.
Qed.
Lemma order_ss : forall g, NoDup (vertices g) -> StronglySorted (fun a b => before g a b = true) (order g).
Proof.
  intros g N. unfold order, row_list. assert (S := qltb_strict _ (NoDup_nodup Qc_eq_dec (map (row g) (vertices g)))).
  induction S as [|r s S IH F]; [constructor|]. cbn [map concat]. apply ss_app; auto.
  - eapply ss_impl; [apply ltb_strict, NoDup_filter; auto|]. intros a b Ia Ib L. rewrite sorted_in, filter_In, has_row_iff in Ia, Ib. unfold before. destruct Ia as [_ ->], Ib as [_ ->].
    rewrite qeqb_refl, L. apply orb_true_r.
  - intros a b Ia Ib. rewrite sorted_in, filter_In, has_row_iff in Ia. apply in_concat in Ib. destruct Ib as [l [Il Ib]]. apply in_map_iff in Il. destruct Il as [r' [<- Ir]].
    rewrite sorted_in, filter_In, has_row_iff in Ib. rewrite Forall_forall in F. unfold before. destruct Ia as [_ ->], Ib as [_ ->]. rewrite F; auto.
Qed.
Lemma before_irr : forall g v, before g v v = false.
Proof. intros. unfold before. rewrite Nat.ltb_irrefl, andb_false_r, orb_false_r. destruct (qltb _ _) eqn:E; auto. apply qltb_lt in E. exfalso. eapply Qclt_not_eq; eauto. Qed.
Lemma before_asym : forall g u v, before g u v = true -> before g v u = false.
Proof.
  intros g u v H. unfold before in *. apply orb_true_iff in H. destruct H as [H|H].
  - apply orb_false_iff. split; [|apply andb_false_iff; left].
    + destruct (qltb (row g v) (row g u)) eqn:E; auto. rewrite qltb_lt in *. exfalso. apply (Qclt_not_le _ _ H). apply Qclt_le_weak; auto.
    + destruct (qeqb _ _) eqn:E; auto. apply qeqb_eq in E. rewrite E, qltb_lt in H. exfalso. eapply Qclt_not_eq; eauto.
  - apply andb_true_iff in H. destruct H as [H L]. apply qeqb_eq in H. rewrite H, Nat.ltb_lt in *. apply orb_false_iff. split.
    + destruct (qltb _ _) eqn:E; auto. apply qltb_lt in E. exfalso. eapply Qclt_not_eq; eauto.
    + apply andb_false_iff. right. apply Nat.ltb_ge. lia.
Qed.
Lemma ss_mid : forall A (R : A -> A -> Prop) l1 v l2, StronglySorted R (l1 ++ v :: l2) -> (forall a, In a l1 -> R a v) /\ (forall a, In a l2 -> R v a).
Proof.
  induction l1 as [|a l1 IH]; intros v l2 H; cbn in H; inversion H as [|? ? S F]; subst; rewrite Forall_forall in F.
  - split; [intros a []|auto].
  - destruct (IH v l2 S) as [P Q]. split; auto. intros b [<-|I]; auto. apply F, in_app_iff. right. left; auto.
Qed.
Lemma order_before : forall g D v E, NoDup (vertices g) -> order g = D ++ v :: E -> forall n, In n (vertices g) -> before g n v = true <-> In n D.
Proof.
  intros g D v E N O n I. assert (S := order_ss g N). rewrite O in S. destruct (ss_mid _ _ _ _ _ S) as [P Q]. split; [|apply P].
  intros B. apply order_in in I. rewrite O in I. apply in_app_iff in I. destruct I as [I|[<-|I]]; auto.
  - rewrite before_irr in B. discriminate.
  - apply Q in I. apply before_asym in I. congruence.
Qed.
Lemma order_nodup : forall g, NoDup (vertices g) -> NoDup (order g).
Proof.
  intros g N. assert (S := order_ss g N). induction S as [|a l S IH F]; constructor; auto. intros I. rewrite Forall_forall in F. apply F in I. rewrite before_irr in I. discriminate.
Qed.

(** ** Deleting positions from a list *)
Definition rk (q : nat -> bool) (p : nat) : nat := length (filter q (seq 0 p)).
Lemma seq_S' : forall n, seq 0 (S n) = seq 0 n ++ [n].
Proof. intros. rewrite seq_S. auto. Qed.
Lemma poss_free : forall (P q : nat -> bool) n, let fr := filter q (seq 0 n) in
  filter (fun j => P (nth j fr 0)) (seq 0 (length fr)) = map (rk q) (filter P fr).
Proof.
  intros P q n. cbv zeta. induction n as [|n IH]; auto. rewrite seq_S', filter_app. cbn [filter]. destruct (q n) eqn:E; [|rewrite !app_nil_r; auto].
  rewrite app_length. cbn [length]. rewrite Nat.add_1_r, seq_S', !filter_app, map_app. f_equal.
  - rewrite <- IH. apply filter_ext_in. intros j J. apply in_seq in J. rewrite app_nth1; auto. lia.
  - cbn [filter]. rewrite app_nth2, Nat.sub_diag by lia. cbn [nth]. destruct (P n); auto.
Qed.
Lemma filter_comm : forall A (P q : A -> bool) l, filter P (filter q l) = filter q (filter P l).
Proof. induction l as [|a l IH]; auto. cbn. destruct (q a) eqn:E1, (P a) eqn:E2; cbn; rewrite ?E1, ?E2, ?IH; auto. Qed.
Lemma filter_len : forall A (q : A -> bool) l, length (filter q l) + length (filter (fun a => negb (q a)) l) = length l.
Proof. induction l as [|a l IH]; auto. cbn. destruct (q a); cbn; lia. Qed.
Lemma nodup_len : forall (l l' : list nat), NoDup l -> NoDup l' -> (forall a, In a l <-> In a l') -> length l = length l'.
Proof. intros. apply Permutation_length, NoDup_Permutation; auto. Qed.
Lemma rk_free : forall contr p, NoDup contr -> rk (fun p => negb (nmem p contr)) p = p - length (filter (fun c => Nat.ltb c p) contr).
Proof.
  intros contr p N. unfold rk. assert (E := filter_len _ (fun p => negb (nmem p contr)) (seq 0 p)). rewrite seq_length in E.
  rewrite (nodup_len (filter (fun c => Nat.ltb c p) contr) (filter (fun a => negb (negb (nmem a contr))) (seq 0 p))); [lia|apply NoDup_filter; auto|apply NoDup_filter, seq_NoDup|].
  intros a. rewrite !filter_In, in_seq, negb_involutive, nmem_spec, Nat.ltb_lt. intuition lia.
Qed.
(** the shifts of pop_and_shift *)
Definition sh (i j : nat) : nat := if Nat.ltb i j then j - 1 else j.
Definition shs (l : list nat) (j : nat) : nat := fold_left (fun j i => sh i j) l j.
Lemma shs_le : forall l j, (forall i, In i l -> j <= i) -> shs l j = j.
Proof.
  induction l as [|i l IH]; intros j H; auto. cbn. unfold sh at 2. rewrite (proj2 (Nat.ltb_ge i j)) by (apply H; left; auto). apply IH. intros; apply H; right; auto.
Qed.
Lemma shs_spec : forall l p, StronglySorted (fun a b => b < a) l -> ~ In p l -> shs l p = p - length (filter (fun c => Nat.ltb c p) l).
Proof.
  intros l p S. revert p. induction S as [|i l S IH F]; intros p N; [cbn; lia|]. rewrite Forall_forall in F. unfold shs. cbn [fold_left filter]. fold (shs l (sh i p)). unfold sh. destruct (Nat.ltb_spec i p) as [L|L].
  - rewrite IH by (intros I; specialize (F _ I); lia). cbn [length].
    replace (filter (fun c => Nat.ltb c (p - 1)) l) with (filter (fun c => Nat.ltb c p) l); [lia|]. apply filter_ext_in. intros a I. specialize (F a I). destruct (Nat.ltb_spec a p), (Nat.ltb_spec a (p - 1)); auto; lia.
  - apply IH. intros I; apply N; right; auto.
Qed.
Lemma ss_rev : forall A (R : A -> A -> Prop) l, StronglySorted R l -> StronglySorted (fun a b => R b a) (rev l).
Proof.
  intros A R l S. induction S as [|a l S IH F]; cbn; [constructor|]. apply ss_app; auto; [repeat constructor|]. intros x y I [<-|[]]. rewrite Forall_forall in F. apply F. apply in_rev; auto.
Qed.
Lemma filter_perm_len : forall A (f : A -> bool) l l', Permutation l l' -> length (filter f l) = length (filter f l').
Proof. intros A f l l' P. induction P; cbn; auto; repeat match goal with |- context [f ?x] => destruct (f x) end; cbn; lia. Qed.
Lemma shs_rk : forall contr p, NoDup contr -> ~ In p contr -> shs (rev (sorted Nat.ltb contr)) p = rk (fun p => negb (nmem p contr)) p.
Proof.
  intros contr p N I. rewrite rk_free by auto. rewrite shs_spec.
  - f_equal. apply filter_perm_len. rewrite <- Permutation_rev. apply sorted_perm.
  - apply ss_rev. eapply ss_impl; [apply ltb_strict; auto|]. intros a b _ _ H. apply Nat.ltb_lt in H. auto.
  - rewrite <- in_rev, sorted_in. auto.
Qed.
Lemma dget_shift : forall i ind v, dget v (shift i ind) = option_map (map (sh i)) (dget v ind).
Proof. unfold shift. induction ind as [|[w l] ind IH]; intros v; auto. cbn. destruct (Nat.eqb v w); auto. Qed.
Lemma dget_shifts : forall l ind v, dget v (fold_left (fun ind i => shift i ind) l ind) = option_map (map (shs l)) (dget v ind).
Proof.
  induction l as [|i l IH]; intros ind v; cbn [fold_left].
  - destruct (dget v ind); cbn; auto. unfold shs. cbn. rewrite map_id. auto.
  - rewrite IH, dget_shift. destruct (dget v ind) as [x|]; cbn; auto. rewrite map_map. auto.
Qed.

(** ** Labels *)
Inductive label := Inp (i : nat) | Leg (v : nat).
Definition is_leg (v : nat) (l : label) : bool := match l with Leg w => Nat.eqb w v | _ => false end.
Definition lab (L : list label) (p : nat) : label := nth p L (Inp 0).
Definition poss (v : nat) (L : list label) : list nat := filter (fun p => is_leg v (lab L p)) (seq 0 (length L)).
Lemma is_leg_iff : forall v l, is_leg v l = true <-> l = Leg v.
Proof. intros v [i|w]; cbn; [split; discriminate|]. rewrite Nat.eqb_eq. split; intros H; [subst; auto|injection H; auto]. Qed.
Lemma in_poss : forall v L p, In p (poss v L) <-> p < length L /\ lab L p = Leg v.
Proof. intros. unfold poss. rewrite filter_In, in_seq, is_leg_iff. intuition lia. Qed.
Lemma nodup_poss : forall v L, NoDup (poss v L).
Proof. intros. apply NoDup_filter, seq_NoDup. Qed.
Lemma poss_app : forall v L1 L2, poss v (L1 ++ L2) = poss v L1 ++ map (plus (length L1)) (poss v L2).
Proof.
  intros. unfold poss. rewrite app_length, seq_app, filter_app. cbn [plus]. f_equal.
  - apply filter_ext_in. intros p I. apply in_seq in I. unfold lab. rewrite app_nth1 by lia. auto.
  - assert (E : forall k n, seq k n = map (plus k) (seq 0 n)).
    { intros k n. revert k. induction n as [|n IH]; intros k; auto. cbn [seq map]. rewrite Nat.add_0_r. f_equal. rewrite IH, (IH 1), map_map. apply map_ext. intros; lia. }
    rewrite (E (length L1)). induction (seq 0 (length L2)) as [|p l IH]; auto. cbn [map filter]. unfold lab at 1. rewrite app_nth2 by lia. rewrite Nat.add_comm, Nat.add_sub. fold (lab L2 p). rewrite Nat.add_comm.
    destruct (is_leg v (lab L2 p)); cbn [map]; rewrite IH; auto.
Qed.
Lemma poss_none : forall v L, (forall l, In l L -> l <> Leg v) -> poss v L = [].
Proof. intros v L H. apply filter_none. intros p I. apply in_seq in I. destruct (is_leg v (lab L p)) eqn:E; auto. apply is_leg_iff in E. exfalso. apply (H (lab L p)); auto. apply nth_In. lia. Qed.
Lemma poss_repeat : forall v m, poss v (repeat (Leg v) m) = seq 0 m.
Proof.
  intros. unfold poss. rewrite repeat_length. apply filter_all. intros p I. apply in_seq in I. apply is_leg_iff. unfold lab. apply (repeat_spec m). apply nth_In. rewrite repeat_length. lia.
Qed.
(** the labels of the axes that are not contracted *)
Definition rest (L : list label) (contr : list nat) : list label := map (lab L) (free (length L) contr).
Lemma rest_poss : forall w L contr, NoDup contr -> poss w (rest L contr) = map (shs (rev (sorted Nat.ltb contr))) (filter (fun p => negb (nmem p contr)) (poss w L)).
Proof.
  intros w L contr N. unfold poss at 1, rest. rewrite map_length.
  transitivity (filter (fun j => (fun p => is_leg w (lab L p)) (nth j (free (length L) contr) 0)) (seq 0 (length (free (length L) contr)))).
  - apply filter_ext_in. intros j J. apply in_seq in J. unfold lab at 1. rewrite (nth_indep _ _ (lab L 0)) by (rewrite map_length; lia). rewrite map_nth. auto.
  - unfold free. rewrite (poss_free (fun p => is_leg w (lab L p))). rewrite filter_comm. fold (poss w L). apply map_ext_in. intros p I. apply filter_In in I. symmetry. apply shs_rk; auto.
    destruct I as [_ I]. apply negb_true_iff, nmem_false in I. auto.
Qed.

(** ** pop *)
Lemma pop_snoc : forall v ind l i, dget v ind = Some (l ++ [i]) -> pop v ind = Ok (i, dset v l ind).
Proof. intros v ind l i H. unfold pop. rewrite H. cbn [of_opt bind]. rewrite rev_app_distr. cbn [rev app]. rewrite rev_involutive. auto. Qed.
Lemma pops_ok : forall L vs ind, NoDup vs -> (forall v, In v vs -> dget v ind = Some (poss v L)) -> (forall v, In v vs -> poss v L <> []) ->
  exists cs ind', pops vs ind = Ok (cs, ind') /\ length cs = length vs /\ (forall j, j < length vs -> In (nth j cs 0) (poss (nth j vs 0) L)) /\
    (forall v, ~ In v vs -> dget v ind' = dget v ind) /\
    (forall v, In v vs -> dget v ind' = Some (filter (fun p => negb (nmem p cs)) (poss v L))).
Proof.
  intros L. induction vs as [|v vs IH]; intros ind N H1 H2.
  - exists [], ind. do 2 (split; [auto|]). split; [intros j J; cbn in J; lia|]. split; [auto|intros v []].
  - inversion N as [|? ? NI N']; subst. destruct (exists_last (H2 v (or_introl eq_refl))) as [l [i E]].
    assert (D := H1 v (or_introl eq_refl)). rewrite E in D. cbn [pops]. rewrite (pop_snoc _ _ _ _ D). cbn [bind fst snd].
    destruct (IH (dset v l ind)) as [cs [ind' [P [LE [J [O I]]]]]]; auto.
    { intros w Hw. rewrite dget_dset. destruct (Nat.eqb_spec w v) as [->|_]; [contradiction|]. apply H1; right; auto. }
    { intros w Hw. apply H2; right; auto. }
    rewrite P. cbn [bind fst snd]. exists (i :: cs), ind'. split; [reflexivity|]. split; [cbn; auto|].
    assert (CI : forall p, In p cs -> exists w, In w vs /\ In p (poss w L)).
    { intros p Ip. apply (In_nth _ _ 0) in Ip. destruct Ip as [j [Lj <-]]. exists (nth j vs 0). rewrite LE in Lj. split; [apply nth_In; auto|auto]. }
    assert (II : In i (poss v L)) by (rewrite E; apply in_app_iff; right; left; auto).
    split; [intros [|j] Lj; cbn [nth]; [auto|apply J; cbn in Lj; lia]|]. split.
    + intros w Hw. rewrite O by (intros Iw; apply Hw; right; auto). rewrite dget_dset. destruct (Nat.eqb_spec w v) as [->|_]; auto. exfalso. apply Hw. left; auto.
    + intros w [<-|Hw].
      * rewrite O by auto. rewrite dget_dset, Nat.eqb_refl. f_equal. rewrite E, filter_app. assert (NE := nodup_poss v L). rewrite E in NE.
        cbn [filter]. unfold nmem at 2. cbn [existsb]. rewrite Nat.eqb_refl. cbn [orb negb]. rewrite app_nil_r. symmetry. apply filter_all. intros p Ip. apply negb_true_iff, nmem_false. intros [->|Ic].
        -- apply NoDup_remove_2 in NE. rewrite app_nil_r in NE. auto.
        -- destruct (CI p Ic) as [u [Iu Pu]]. assert (Pv : In p (poss v L)) by (rewrite E; apply in_app_iff; auto). apply in_poss in Pu, Pv. destruct Pu as [_ Pu], Pv as [_ Pv]. assert (u = v) by congruence. subst. auto.
      * rewrite I by auto. f_equal. apply filter_ext_in. intros p Ip. unfold nmem at 2. cbn [existsb]. destruct (Nat.eqb_spec p i) as [->|_]; [|reflexivity].
        exfalso. apply in_poss in Ip, II. destruct Ip as [_ Ip], II as [_ II]. assert (w = v) by congruence. subst. auto.
Qed.
Lemma pop_shift_ok : forall L vs ind, NoDup vs -> (forall v, dget v ind = None \/ dget v ind = Some (poss v L)) -> (forall v, In v vs -> dget v ind <> None /\ poss v L <> []) ->
  exists cs ind', pop_and_shift vs ind = Ok (cs, ind') /\ length cs = length vs /\ (forall j, j < length vs -> In (nth j cs 0) (poss (nth j vs 0) L)) /\ NoDup cs /\
    (forall v, dget v ind' = match dget v ind with None => None | Some _ => Some (poss v (rest L cs)) end).
Proof.
  intros L vs ind N H1 H2. destruct (pops_ok L vs ind N) as [cs [ind' [P [LE [J [O I]]]]]].
  { intros v Hv. destruct (H1 v) as [E|E]; auto. exfalso. apply (proj1 (H2 v Hv)); auto. }
  { intros v Hv. apply H2; auto. }
  assert (ND : NoDup cs).
  { rewrite NoDup_nth with (d := 0). intros i j Li Lj E. rewrite LE in Li, Lj. assert (A := J i Li). assert (B := J j Lj). rewrite E in A. apply in_poss in A, B. destruct A as [_ A], B as [_ B].
    rewrite NoDup_nth with (d := 0) in N. apply N; auto. congruence. }
  unfold pop_and_shift. rewrite P. cbn [bind fst snd]. eexists. eexists. split; [reflexivity|]. do 3 (split; [auto|]).
  intros v. rewrite dget_shifts. destruct (in_dec Nat.eq_dec v vs) as [Iv|Iv].
  - rewrite I by auto. destruct (H1 v) as [E|E]; [exfalso; apply (proj1 (H2 v Iv)); auto|]. rewrite E. cbn [option_map]. rewrite rest_poss; auto.
  - rewrite O by auto. destruct (H1 v) as [E|E]; rewrite E; cbn [option_map]; auto. rewrite rest_poss by auto. do 2 f_equal. symmetry. apply filter_all. intros p Ip.
    apply negb_true_iff, nmem_false. intros Ic. apply (In_nth _ _ 0) in Ic. destruct Ic as [j [Lj <-]]. rewrite LE in Lj. specialize (J j Lj). apply in_poss in J, Ip. destruct J as [_ J], Ip as [_ Ip].
    apply Iv. replace v with (nth j vs 0) by congruence. apply nth_In; auto.
Qed.
