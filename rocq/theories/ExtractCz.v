(** Circuit extraction: the CZ gates between frontier spiders. *)
From Coq Require Import Reals ZArith QArith Qcanon List Bool Arith Lia Permutation FunctionalExtensionality.
From Verif Require Import LinModel LinProofs CNum Base ScalarModel ScalarProofs GraphModel GraphSem SumLemmas GraphProofs GraphOps RulesModel RuleLemmas
  SpiderProofs IsoProofs IdProofs LcompProofs PivotProofs PivotMatch GrowProofs StoreProofs InvProofs BfixProofs TotalProofs GrowTotal
  GateModel CircSpec GateProofs GateMask AmpProofs CircGraphModel CircGraphProofs CircGraphFacts VerifyProofs GraphAlgModel GraphAlgProofs GraphAlgFacts
  ComposeProofs ApplyProofs ExtractModel ExtractSem ExtractMap ExtractClean.
Import ListNotations.
Open Scope C_scope.

(** ** Quadratic forms *)
Definition pairs (n : nat) : list (nat * nat) := flat_map (fun i => map (fun j => (i, j)) (seq (i + 1) (n - (i + 1)))) (seq 0 n).
Lemma pairs_in : forall n i j, In (i, j) (pairs n) <-> (i < j < n)%nat.
Proof.
  intros n i j. unfold pairs. rewrite in_flat_map. split.
  - intros [i' [H1 H2]]. apply in_map_iff in H2. destruct H2 as [j' [E H2]]. injection E as -> ->. apply in_seq in H1, H2. lia.
  - intros H. exists i. rewrite in_seq, in_map_iff. split; [lia|]. exists j. rewrite in_seq. split; auto. lia.
Qed.
Lemma flat_map_nd : forall (A B : Type) (f : A -> list B) l, NoDup l -> (forall a, In a l -> NoDup (f a)) ->
  (forall a a' b, In a l -> In a' l -> In b (f a) -> In b (f a') -> a = a') -> NoDup (flat_map f l).
Proof.
  induction l as [|a l IH]; intros N H D; simpl; [constructor|]. inversion N; subst. apply RuleLemmas.nodup_app.
  - apply H; simpl; auto.
  - apply IH; auto; [intros; apply H; simpl; auto|]. intros. eapply D; eauto; simpl; auto.
  - intros b Hb X. apply in_flat_map in X. destruct X as [a' [Ha Hb']]. assert (a = a') by (eapply D; eauto; simpl; auto). subst. contradiction.
Qed.
Lemma pairs_nd : forall n, NoDup (pairs n).
Proof.
  intros n. apply flat_map_nd; [apply seq_NoDup| |].
  - intros i _. apply FinFun.Injective_map_NoDup; [intros x y H; congruence|apply seq_NoDup].
  - intros a a' b _ _ H H'. apply in_map_iff in H, H'. destruct H as [x [<- _]]. destruct H' as [y [E _]]. congruence.
Qed.
Definition cqf (c : nat -> nat -> bool) (l : list (nat * nat)) (y : assignment) : bool :=
  fold_right (fun p acc => xorb (c (fst p) (snd p) && (y (fst p) && y (snd p))) acc) false l.
Lemma cqf_ext : forall c c' l y, (forall i j, In (i, j) l -> c i j = c' i j) -> cqf c l y = cqf c' l y.
Proof.
  induction l as [|[i j] l IH]; intros y H; simpl; auto. rewrite (H i j) by (simpl; auto). rewrite IH; auto. intros. apply H; simpl; auto.
Qed.
Lemma cqf_change : forall c c' l i j y, NoDup l -> In (i, j) l -> (forall u v, In (u, v) l -> (u, v) <> (i, j) -> c' u v = c u v) ->
  cqf c' l y = xorb (cqf c l y) (xorb (c i j) (c' i j) && (y i && y j)).
Proof.
  induction l as [|[a b] l IH]; intros i j y N H E; [destruct H|]. inversion N; subst. simpl. destruct H as [X|H].
  - injection X as -> ->. rewrite (cqf_ext c' c); [destruct (c i j), (c' i j), (y i && y j), (cqf c l y); auto|].
    intros u v Hu. apply E; simpl; auto. intros Y. congruence.
  - rewrite (E a b) by (simpl; auto; congruence). rewrite (IH i j) by (auto; intros; apply E; simpl; auto).
    destruct (c a b), (y a && y b), (cqf c l y), (xorb (c i j) (c' i j) && (y i && y j)); auto.
Qed.
Lemma cqf_sym_change : forall n c c' i j b y, (forall u v, c u v = c v u) -> i <> j -> (i < n)%nat -> (j < n)%nat ->
  (forall u v, c' u v = if pair_hit i j u v then b else c u v) -> cqf c' (pairs n) y = xorb (cqf c (pairs n) y) (xorb (c i j) b && (y i && y j)).
Proof.
  intros n c c' i j b y S D Hi Hj H. destruct (Nat.lt_ge_cases i j) as [L|L].
  - rewrite (cqf_change c c' (pairs n) i j); [|apply pairs_nd|apply pairs_in; lia|].
    + rewrite (H i j), pair_hit_st. auto.
    + intros u v Hu X. rewrite H, pair_hit_false; auto. intros Y. injection Y as -> ->. apply pairs_in in Hu. lia.
  - rewrite (cqf_change c c' (pairs n) j i); [|apply pairs_nd|apply pairs_in; lia|].
    + rewrite (H j i), pair_hit_sym, pair_hit_st, (S j i), (andb_comm (y j)). auto.
    + intros u v Hu X. rewrite H, pair_hit_false; auto. intros Y. injection Y as -> ->. apply pairs_in in Hu. lia.
Qed.
Lemma sgn_xor : forall a b, sgn (xorb a b) = sgn a * sgn b.
Proof. intros [] []; simpl; unfold sgn; ring. Qed.

(** ** The matrix of CZ gates *)
Record czok (n : nat) (cz : mat) : Prop := mkczok {
  cz_rect : rect n n cz; cz_sym : forall i j, get cz i j = get cz j i; cz_diag : forall i, get cz i i = false }.
Lemma mput_spec : forall r c i j b m m', rect r c m -> mput i j b m = Ok m' ->
  (i < r)%nat /\ (j < c)%nat /\ rect r c m' /\ forall u v, get m' u v = if Nat.eqb u i && Nat.eqb v j then b else get m u v.
Proof.
  intros r c i j b m m' R H. unfold mput in H. destruct (_ && _) eqn:B; [|discriminate]. apply andb_true_iff in B. destruct B as [B1 B2].
  apply Nat.ltb_lt in B1, B2. injection H as <-. assert (Ri : length (LinModel.row m i) = c) by (eapply rect_row; eauto; destruct R as [<- _]; auto).
  assert (L : length m = r) by (apply R). split; [lia|]. split; [lia|]. split.
  - destruct R as [R1 R2]. split; [rewrite upd_length; auto|]. intros x Hx. apply upd_in in Hx. destruct Hx as [->|Hx]; [rewrite upd_length; auto|auto].
  - intros u v. unfold get at 1, LinModel.row at 1. rewrite nth_upd. rewrite (proj2 (Nat.ltb_lt i (length m))) by auto. rewrite andb_true_r.
    destruct (Nat.eqb_spec u i) as [->|]; [|auto]. rewrite nth_upd, Ri. replace (Nat.ltb j c) with true by (symmetry; apply Nat.ltb_lt; lia). rewrite andb_true_r. simpl.
    destruct (Nat.eqb v j); auto.
Qed.
Lemma zeros_ok : forall n, czok n (mat_zeros n n) /\ forall i j, get (mat_zeros n n) i j = false.
Proof.
  intros n.
  assert (Z : forall i j, get (mat_zeros n n) i j = false).
  { intros i j. unfold get, LinModel.row, mat_zeros. destruct (nth_in_or_default i (map (fun _ => map (fun _ => false) (seq 0 n)) (seq 0 n)) []) as [H|H].
    - apply in_map_iff in H. destruct H as [x [H _]]. destruct (nth_in_or_default j (map (fun _ => false) (seq 0 n)) false) as [Y|Y]; rewrite <- H; [|auto].
      apply in_map_iff in Y. destruct Y as [z [Y _]]. auto.
    - rewrite H. destruct j; auto. }
  split; auto. constructor; [|intros; rewrite !Z; auto|auto].
  split; [unfold mat_zeros; rewrite map_length, seq_length; auto|]. intros r Hr. unfold mat_zeros in Hr. apply in_map_iff in Hr. destruct Hr as [x [<- _]]. rewrite map_length, seq_length. auto.
Qed.
Lemma cqf_zero : forall c l y, (forall i j, c i j = false) -> cqf c l y = false.
Proof. induction l as [|[i j] l IH]; intros y H; simpl; auto. rewrite H, IH by auto. auto. Qed.
Lemma put2 : forall n i j b cz cz1 cz2, czok n cz -> i <> j -> mput i j b cz = Ok cz1 -> mput j i b cz1 = Ok cz2 ->
  czok n cz2 /\ (i < n)%nat /\ (j < n)%nat /\ (forall u v, get cz2 u v = if pair_hit i j u v then b else get cz u v) /\
  forall y, cqf (get cz2) (pairs n) y = xorb (cqf (get cz) (pairs n) y) (xorb (get cz i j) b && (y i && y j)).
Proof.
  intros n i j b cz cz1 cz2 [R S D] N H1 H2. destruct (mput_spec _ _ _ _ _ _ _ R H1) as [Hi [Hj [R1 G1]]]. destruct (mput_spec _ _ _ _ _ _ _ R1 H2) as [_ [_ [R2 G2]]].
  assert (G : forall u v, get cz2 u v = if pair_hit i j u v then b else get cz u v).
  { intros u v. rewrite G2, G1. unfold pair_hit. destruct (Nat.eqb_spec u j), (Nat.eqb_spec v i), (Nat.eqb_spec u i), (Nat.eqb_spec v j); simpl; auto. }
  split; [|split; auto; split; auto; split; auto].
  - constructor; auto; intros.
    + rewrite !G, pair_hit_sym, S. auto.
    + rewrite G, pair_hit_false, D; auto; intros X; injection X as -> ->; congruence.
  - intros y. apply cqf_sym_change; auto.
Qed.

(** ** CZ gates *)
Definition pgate (cz : mat) (p : nat * nat) : list gate := if get cz (fst p) (snd p) then [GCZ (fst p) (snd p)] else [].
Lemma flat_map_comp : forall (A B D : Type) (f : A -> list B) (h : B -> list D) l, flat_map h (flat_map f l) = flat_map (fun a => flat_map h (f a)) l.
Proof. induction l as [|a l IH]; simpl; auto. rewrite flat_map_app, IH. auto. Qed.
Lemma flat_map_map : forall (A B D : Type) (f : A -> B) (h : B -> list D) l, flat_map h (map f l) = flat_map (fun a => h (f a)) l.
Proof. induction l; simpl; auto. rewrite IHl. auto. Qed.
Lemma cz_gates_pairs : forall n cz, cz_gates n cz = flat_map (pgate cz) (pairs n).
Proof.
  intros. unfold cz_gates, pairs. rewrite flat_map_comp. apply flat_map_ext. intros i. rewrite flat_map_map. auto.
Qed.
Lemma pgates_den : forall cz l s y, cden (rev (flat_map (pgate cz) l)) s y = sgn (cqf (get cz) l y) * s y.
Proof.
  intros cz. induction l as [|p l IH]; intros s y; cbn [flat_map cqf fold_right].
  - simpl. unfold sgn. ring.
  - fold (cqf (get cz) l y). rewrite rev_app_distr, cden_app, sgn_xor. assert (PG : pgate cz p = if get cz (fst p) (snd p) then [GCZ (fst p) (snd p)] else []) by reflexivity. rewrite PG. clear PG. destruct (get cz (fst p) (snd p)); cbn [rev app].
    + change (cden [GCZ (fst p) (snd p)] (cden (rev (flat_map (pgate cz) l)) s) y) with (sgn (y (fst p) && y (snd p)) * cden (rev (flat_map (pgate cz) l)) s y).
      rewrite IH. simpl. ring.
    + change (cden [] (cden (rev (flat_map (pgate cz) l)) s) y) with (cden (rev (flat_map (pgate cz) l)) s y). rewrite IH. simpl. unfold sgn. ring.
Qed.
Lemma gcz_in : forall n i j, i <> j -> (i < n)%nat -> (j < n)%nat -> gate_in n (GCZ i j).
Proof. intros n i j D Hi Hj. split; [split; [repeat constructor; simpl; intuition congruence|split; [discriminate|exact I]]|]. intros q [<-|[<-|[]]]; auto. Qed.
Lemma gcnot_in : forall n i j, i <> j -> (i < n)%nat -> (j < n)%nat -> gate_in n (GCNOT i j).
Proof. intros n i j D Hi Hj. split; [split; [repeat constructor; simpl; intuition congruence|split; [discriminate|exact I]]|]. intros q [<-|[<-|[]]]; auto. Qed.
Lemma cz_gates_in : forall n cz, Forall (gate_in n) (cz_gates n cz).
Proof.
  intros n cz. rewrite cz_gates_pairs. apply Forall_forall. intros x Hx. apply in_flat_map in Hx. destruct Hx as [[i j] [H1 H2]]. apply pairs_in in H1.
  unfold pgate in H2. simpl in H2. destruct (get cz i j); [|destruct H2]. destruct H2 as [<-|[]]. apply gcz_in; lia.
Qed.

(** ** Sharing CZ gates, extract.py 521-533 *)
Lemma share_fold : forall n i j common cz gs cz' gs', czok n cz -> i <> j -> NoDup common ->
  (forall k, In k common -> get cz i k = true /\ get cz j k = true) -> foldM (share_one i j) common (cz, gs) = Ok (cz', gs') ->
  czok n cz' /\ gs' = gs ++ map (GCZ j) common /\ (forall k, In k common -> (k < n)%nat) /\
  forall y, cqf (get cz) (pairs n) y = xorb (cqf (get cz') (pairs n) y) (fold_right (fun k acc => xorb (xorb (y j) (y i) && y k) acc) false common).
Proof.
  intros n i j. induction common as [|k common IH]; intros cz gs cz' gs' K D N H E; cbn [foldM] in E.
  - injection E as <- <-. split; auto. split; [rewrite app_nil_r; auto|]. split; [intros x []|]. intros y. simpl. rewrite xorb_false_r. auto.
  - inversion N; subst. inv_bind E. destruct a as [cz1 gs1]. unfold share_one in E0.
    inv_bind E0. inv_bind E0. inv_bind E0. inv_bind E0. injection E0 as <- <-.
    destruct K as [R S Dg].
    destruct (mput_spec _ _ _ _ _ _ _ R E1) as [Li [Lk [R1 G1]]]. destruct (mput_spec _ _ _ _ _ _ _ R1 E2) as [Lj [_ [R2 G2']]].
    destruct (mput_spec _ _ _ _ _ _ _ R2 E3) as [_ [_ [R3 G3]]]. destruct (mput_spec _ _ _ _ _ _ _ R3 E4) as [_ [_ [R4 G4]]].
    destruct (H k) as [Hik Hjk]; [simpl; auto|].
    assert (Dik : i <> k) by (intros ->; rewrite Dg in Hik; discriminate). assert (Djk : j <> k) by (intros ->; rewrite Dg in Hjk; discriminate).
    assert (Gt : forall u v, get a2 u v = if pair_hit j k u v then false else if pair_hit i k u v then false else get cz u v).
    { intros u v. rewrite G4, G3, G2', G1. unfold pair_hit.
      destruct (Nat.eqb_spec u k), (Nat.eqb_spec v j), (Nat.eqb_spec v i), (Nat.eqb_spec u j), (Nat.eqb_spec u i), (Nat.eqb_spec v k); simpl; auto; subst; try congruence. }
    set (cm := fun u v => if pair_hit i k u v then false else get cz u v).
    assert (Scm : forall u v, cm u v = cm v u) by (intros; unfold cm; rewrite pair_hit_sym, S; auto).
    assert (K' : czok n a2).
    { constructor; auto; intros.
      - rewrite !Gt, (pair_hit_sym j k), (pair_hit_sym i k), S. auto.
      - rewrite Gt, Dg. destruct (pair_hit j k _ _); auto. destruct (pair_hit i k _ _); auto. }
    destruct (IH a2 (gs ++ [GCZ j k]) cz' gs' K' D) as [K2 [-> [Lc Q]]]; auto.
    { intros k' Hk'. assert (k' <> k) by (intros ->; contradiction). destruct (H k') as [A B]; [simpl; auto|].
      rewrite !Gt, !pair_hit_false; auto; intros X; injection X; intros; congruence. }
    split; auto. split; [rewrite <- app_assoc; auto|]. split; [intros x [<-|Hx]; auto|].
    intros y.
    assert (A1 : cqf cm (pairs n) y = xorb (cqf (get cz) (pairs n) y) (xorb (get cz i k) false && (y i && y k))) by (apply cqf_sym_change; auto).
    assert (A2 : cqf (get a2) (pairs n) y = xorb (cqf cm (pairs n) y) (xorb (cm j k) false && (y j && y k))) by (apply cqf_sym_change; auto).
    assert (Cjk : cm j k = true).
    { unfold cm. rewrite pair_hit_false; auto; intros X; injection X; intros; congruence. }
    rewrite Q in A2. rewrite A1, Cjk, Hik in A2. cbn [fold_right].
    revert A2. generalize (cqf (get cz) (pairs n) y) (cqf (get cz') (pairs n) y) (fold_right (fun k0 acc => xorb (xorb (y j) (y i) && y k0) acc) false common).
    intros [] [] []; destruct (y i), (y j), (y k); simpl; auto; discriminate.
Qed.
Lemma max_overlap_spec : forall n cz i j common, czok n cz -> max_overlap cz = Ok ((i, j), common) -> common <> [] ->
  i <> j /\ (i < n)%nat /\ (j < n)%nat /\ NoDup common /\ forall k, In k common -> get cz i k = true /\ get cz j k = true.
Proof.
  intros n cz i j common [R S D] H NE. unfold max_overlap in H. destruct cz as [|r0 cz0]; [discriminate|].
  assert (L : length r0 = n) by (apply R; simpl; auto). set (cz := r0 :: cz0) in *. rewrite L in H. injection H as H.
  set (ok := fun st : (nat * nat) * list nat => snd st <> [] -> fst (fst st) <> snd (fst st) /\ (fst (fst st) < n)%nat /\ (snd (fst st) < n)%nat /\ NoDup (snd st) /\
    forall k, In k (snd st) -> get cz (fst (fst st)) k = true /\ get cz (snd (fst st)) k = true).
  assert (X : forall l st, ok st -> (forall a b, In (a, b) l -> (a < b < n)%nat) -> ok (fold_left (overlap_pair cz n) l st)).
  { induction l as [|[a b] l IH]; intros st O HL; simpl; auto. apply IH; [|intros; apply HL; simpl; auto].
    assert (Lab : (a < b < n)%nat) by (apply HL; simpl; auto). unfold overlap_pair. destruct (Nat.ltb _ (length (filter _ _))); auto.
    assert (CM : forall k, In k (filter (fun k0 => get cz a k0 && get cz b k0) (seq 0 n)) -> get cz a k = true /\ get cz b k = true).
    { intros k Hk. apply filter_In in Hk. destruct Hk as [_ Hk]. apply andb_true_iff in Hk. auto. }
    assert (ND : NoDup (filter (fun k0 => get cz a k0 && get cz b k0) (seq 0 n))) by (apply NoDup_filter, seq_NoDup).
    intros _. destruct (Nat.ltb _ _); cbn [fst snd]; repeat split; auto; try lia; apply CM; auto. }
  assert (O := X (pairs n) ((0, 0), []) (fun Y => False_ind _ (Y eq_refl)) (fun a b Y => proj1 (pairs_in n a b) Y)).
  change (fold_left (overlap_pair cz n) (pairs n) (0, 0, []) = (i, j, common)) in H. rewrite H in O. apply O. auto.
Qed.
Lemma share_den : forall i j common s y, i <> j -> (forall k, In k common -> k <> i /\ k <> j) ->
  cden (rev ([GCNOT i j] ++ map (GCZ j) common ++ [GCNOT i j])) s y = sgn (fold_right (fun k acc => xorb (xorb (y j) (y i) && y k) acc) false common) * s y.
Proof.
  intros i j common s y D H. rewrite !rev_app_distr. simpl (rev [_]). rewrite !cden_app.
  assert (M : forall s y, (cden (rev (map (GCZ j) common)) s) y = sgn (fold_right (fun k acc => xorb (y j && y k) acc) false common) * s y).
  { clear H. induction common as [|k common IH]; intros s0 y0; cbn [map fold_right].
    - simpl. unfold sgn. ring.
    - cbn [rev]. rewrite cden_app, sgn_xor.
      change (sgn (y0 j && y0 k) * cden (rev (map (GCZ j) common)) s0 y0 = sgn (y0 j && y0 k) * sgn (fold_right (fun k0 acc => xorb (y0 j && y0 k0) acc) false common) * s0 y0).
      rewrite IH. ring. }
  change (cden (rev (map (GCZ j) common)) (cden [GCNOT i j] s) (upd y j (xorb (y j) (y i))) = sgn (fold_right (fun k acc => xorb (xorb (y j) (y i) && y k) acc) false common) * s y).
  rewrite M. f_equal.
  - f_equal. clear M. induction common as [|k common IH]; simpl; auto. destruct (H k) as [A B]; [simpl; auto|].
    rewrite upd_same in *. rewrite (upd_other _ j _ k) by auto. f_equal. apply IH. intros; apply H; simpl; auto.
  - change (s (upd (upd y j (xorb (y j) (y i))) j (xorb (upd y j (xorb (y j) (y i)) j) (upd y j (xorb (y j) (y i)) i))) = s y). f_equal.
    apply functional_extensionality. intros k. unfold upd. rewrite Nat.eqb_refl. destruct (Nat.eqb_spec k j) as [->|]; auto.
    rewrite (proj2 (Nat.eqb_neq i j)) by auto. destruct (y j), (y i); auto.
Qed.
Lemma share_ok : forall n fuel cz gs cz' gs', czok n cz -> share_loop fuel (cz, gs) = Ok (cz', gs') ->
  exists new, gs' = gs ++ new /\ Forall (gate_in n) new /\ czok n cz' /\
  forall s y, sgn (cqf (get cz) (pairs n) y) * s y = cden (rev new) (fun y => sgn (cqf (get cz') (pairs n) y) * s y) y.
Proof.
  intros n. induction fuel as [|fuel IH]; intros cz gs cz' gs' K H; cbn [share_loop] in H; inv_bind H; destruct a as [[i j] common]; destruct (Nat.ltb 2 (length common)) eqn:L; try discriminate.
  - injection H as <- <-. exists []. rewrite app_nil_r. auto.
  - assert (NE : common <> []) by (intros ->; discriminate). destruct (max_overlap_spec n cz i j common K E NE) as [D [Li [Lj [ND HC]]]].
    inv_bind H. destruct a as [cz1 gs1]. destruct (share_fold n i j common cz (gs ++ [GCNOT i j]) cz1 gs1 K D ND HC E0) as [K1 [-> [Lk Q]]].
    destruct (IH cz1 _ cz' gs' K1 H) as [new [-> [F2 [K2 S2]]]].
    assert (NK : forall k, In k common -> k <> i /\ k <> j).
    { intros k Hk. destruct (HC k Hk) as [A B]. split; intros ->; rewrite (cz_diag _ _ K) in *; discriminate. }
    exists (([GCNOT i j] ++ map (GCZ j) common ++ [GCNOT i j]) ++ new). split; [rewrite <- !app_assoc; auto|]. split; [|split; auto].
    + apply Forall_app. split; auto. apply Forall_app. split; [constructor; [apply gcnot_in; auto|constructor]|]. apply Forall_app. split; [|constructor; [apply gcnot_in; auto|constructor]].
      apply Forall_forall. intros x Hx. apply in_map_iff in Hx. destruct Hx as [k [<- Hk]]. apply gcz_in; auto. intros ->. apply (NK k); auto.
    + intros s y. rewrite rev_app_distr, cden_app. rewrite share_den by auto. rewrite Q, sgn_xor, <- S2. ring.
  - injection H as <- <-. exists []. rewrite app_nil_r. auto.
Qed.
