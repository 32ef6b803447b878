(** inverse, solve, nullspace, factor and to_cnots of linalg.py *)
From Coq Require Import List Bool Arith NArith Lia Permutation.
From Verif Require Import Base LinModel LinProofs LinAlg LinRank.
Import ListNotations.

Theorem gauss_any : forall full bs h m, wfm m -> bs <> 0 -> exists o own, gauss full bs h m = Ok o /\
  reach (rows m) (cols m) m (go_mat o, go_ops o) /\ ech (go_mat o) own (cols m) /\ go_rank o = length own /\ go_pcs o = h ++ own /\
  (full = true -> forall i i', i < length own -> i' <> i -> get (go_mat o) i' (nth i own 0) = false).
Proof.
  intros full bs h m W Hb. destruct (gauss_ok full bs m W Hb) as [o [E [H1 [H2 [H3 H4]]]]].
  exists (mkGO (go_mat o) (go_ops o) (go_rank o) (h ++ go_pcs o)), (go_pcs o). split; [apply gauss_history; auto|]. simpl. auto.
Qed.

Lemma skipn_cons : forall A (l : list A) i d, i < length l -> skipn i l = nth i l d :: skipn (S i) l.
Proof. induction l as [|x l IH]; intros i d H; simpl in H; [lia|]. destruct i; [reflexivity|]. simpl. apply IH. lia. Qed.
Lemma tl_skipn : forall A (l : list A) i, tl (skipn i l) = skipn (S i) l.
Proof. intros A l. induction l as [|x l IH]; intros [|i]; auto. cbn [skipn]. rewrite IH. destruct l; reflexivity. Qed.

Section Use.
  Variables (m m' : mat) (ops : list (nat * nat)) (own : list nat).
  Hypothesis W : wfm m.
  Hypothesis HR : reach (rows m) (cols m) m (m', ops).
  Hypothesis HE : ech m' own (cols m).
  Hypothesis HF : forall i i', i < length own -> i' <> i -> get m' i' (nth i own 0) = false.
  Notation r := (rows m). Notation c := (cols m). Notation k := (length own). Notation pc i := (nth i own 0).
  Let gi := track_y col_add ops (mat_id r).
  Let g := track_x row_add ops (mat_id r).
  Let Fops : Forall (opok r) ops. Proof. apply HR. Qed.
  Let Sm : shape r c m. Proof. apply wfm_shape; auto. Qed.
  Let Sm' : shape r c m'. Proof. apply (m'_shape m m' ops); auto. Qed.
  Let Rg : rect r r g. Proof. apply track_rect; [apply id_shape|auto]. Qed.
  Let Rgi : rect r r gi. Proof. apply track_y_rect. apply id_shape. Qed.
  Let kr : k <= r. Proof. apply (rk_le m m' ops own); auto. Qed.
  Lemma own_nodup : NoDup own.
  Proof.
    apply (NoDup_nth own 0). intros i j Hi Hj E. destruct (Nat.lt_total i j) as [L|[L|L]]; auto.
    - assert (X := e_inc _ _ _ HE i j L Hj). lia.
    - assert (X := e_inc _ _ _ HE j i L Hi). lia.
  Qed.
  Lemma own_in : forall p, In p own -> p < c.
  Proof. intros p H. destruct (In_nth _ _ 0 H) as [i [Hi <-]]. apply (e_lt _ _ _ HE); auto. Qed.
  Lemma kc : k <= c.
  Proof. assert (X := NoDup_incl_length own_nodup (l' := seq 0 c)). rewrite seq_length in X. apply X. intros p H. apply in_seq. apply own_in in H. lia. Qed.

  (** *** inverse *)
  Lemma full_pivots : k = c -> forall i, i < k -> pc i = i.
  Proof.
    intros E i Hi. assert (A : forall n, n < k -> n <= pc n) by (induction n as [|n IH]; intros Hn; [lia|]; specialize (IH ltac:(lia)); assert (X := e_inc _ _ _ HE n (S n) ltac:(lia) Hn); lia).
    assert (B : forall d n, n < k -> n + d = k - 1 -> pc n <= n).
    { induction d as [|d IH]; intros n Hn En.
      - assert (X := e_lt _ _ _ HE n Hn). lia.
      - specialize (IH (S n) ltac:(lia) ltac:(lia)). assert (X := e_inc _ _ _ HE n (S n) ltac:(lia) ltac:(lia)). lia. }
    specialize (A i Hi). specialize (B (k - 1 - i) i Hi ltac:(lia)). lia.
  Qed.
  Lemma full_id : r = c -> k = r -> m' = mat_id r.
  Proof.
    intros E1 E2. apply (mat_ext r c); [apply Sm'|rewrite <- E1; apply id_shape|]. intros i j Hi Hj. rewrite id_get by lia.
    rewrite <- (full_pivots ltac:(lia) j) at 1 by lia. destruct (Nat.eqb_spec i j) as [->|N].
    - apply (e_one _ _ _ HE). lia.
    - apply HF; auto. lia.
  Qed.
  Lemma inverse_some : r = c -> k = r -> mat_mul g m = mat_id r /\ mat_mul m g = mat_id r /\ rect r r g.
  Proof.
    intros E1 E2. assert (I := full_id E1 E2). destruct (ops_inverse r ops Fops) as [A B]. fold gi g in A, B.
    assert (EM : track_x row_add ops m = m') by (symmetry; apply HR). split; [|split; auto].
    - unfold g. rewrite <- (ops_apply r c) by auto. congruence.
    - assert (X := ops_undo r c ops m Sm Fops). fold gi in X. rewrite EM, I, (mul_id r r gi Rgi) in X. congruence.
  Qed.
  Lemma inverse_none : r = c -> k < r -> forall N, rect r r N -> mat_mul N m <> mat_id r /\ mat_mul m N <> mat_id r.
  Proof.
    intros E1 E2 N RN. assert (SN : shape r r N) by (apply rect_shape; auto; lia). rewrite <- E1 in Sm. split; intros X.
    - destruct (kernel_nontrivial k r (fun t i => xsum (fun a => get N i a && get gi a t) r) E2) as [w [[j [Hj Wj]] K]].
      assert (Y : xsum (fun i => w i && get (mat_id r) i j) r = false).
      { rewrite <- X. rewrite (xsum_ext _ (fun i => xsum (fun t => (w i && xsum (fun a => get N i a && get gi a t) r) && get m' t j) k)).
        - rewrite xsum_swap. apply xsum_zero. intros t Ht. rewrite xsum_and, K by auto. reflexivity.
        - intros i Hi. rewrite (mul_get r r r) by auto. rewrite (xsum_ext _ (fun a => xsum (fun t => get N i a && get gi a t && get m' t j) k)).
          + rewrite xsum_swap, <- xsum_andl. apply xsum_ext. intros t _. rewrite xsum_and, andb_assoc. reflexivity.
          + intros a Ha. rewrite (m_from m m' ops own W HR HE a j) by lia. rewrite <- xsum_andl. apply xsum_ext. intros t _. apply andb_assoc. }
      rewrite (xsum_one _ r j Hj) in Y; [rewrite id_get, Nat.eqb_refl, Wj in Y by auto; discriminate|].
      intros i Hi Ni. rewrite id_get by auto. destruct (Nat.eqb_spec i j); [congruence|apply andb_false_r].
    - destruct (kernel_nontrivial k r (fun t i => get gi i t) E2) as [w [[j [Hj Wj]] K]].
      assert (Y : xsum (fun i => w i && get (mat_id r) i j) r = false).
      { rewrite <- X. rewrite (xsum_ext _ (fun i => xsum (fun t => (w i && get gi i t) && xsum (fun a => get m' t a && get N a j) r) k)).
        - rewrite xsum_swap. apply xsum_zero. intros t Ht. rewrite xsum_and, K by auto. reflexivity.
        - intros i Hi. rewrite (mul_get r r r) by (auto; apply Sm). rewrite (xsum_ext _ (fun a => xsum (fun t => get gi i t && (get m' t a && get N a j)) k)).
          + rewrite xsum_swap, <- xsum_andl. apply xsum_ext. intros t _. rewrite xsum_andl, andb_assoc. reflexivity.
          + intros a Ha. rewrite (m_from m m' ops own W HR HE i a) by lia. rewrite <- xsum_and. apply xsum_ext. intros t _. symmetry. apply andb_assoc. }
      rewrite (xsum_one _ r j Hj) in Y; [rewrite id_get, Nat.eqb_refl, Wj in Y by auto; discriminate|].
      intros i Hi Ni. rewrite id_get by auto. destruct (Nat.eqb_spec i j); [congruence|apply andb_false_r].
  Qed.

  (** *** leading positions *)
  Lemma lead_some : forall l j, nth j l false = true -> (forall j', j' < j -> nth j' l false = false) -> lead l = Some j.
  Proof.
    induction l as [|b l IH]; intros j H1 H2; [destruct j; discriminate|]. destruct j as [|j].
    - simpl in H1. subst b. reflexivity.
    - assert (b = false) by apply (H2 0 ltac:(lia)). subst b. simpl. rewrite (IH j); auto. intros j' Hj'. apply (H2 (S j')). lia.
  Qed.
  Lemma lead_none : forall l, (forall j, nth j l false = false) -> lead l = None.
  Proof. induction l as [|b l IH]; intros H; auto. assert (b = false) by apply (H 0). subst b. simpl. rewrite IH; auto. intros j. apply (H (S j)). Qed.
  Lemma lead_row : forall i, lead (row m' i) = if Nat.ltb i k then Some (pc i) else None.
  Proof.
    intros i. destruct (Nat.ltb_spec i k).
    - apply lead_some; [apply (e_one _ _ _ HE); auto|]. intros j Hj. apply (e_zero _ _ _ HE i j); auto.
    - apply lead_none. intros j. apply (m'_zero m m' ops own W HR HE i j). auto.
  Qed.

  (** *** solve *)
  Variable b : mat.
  Hypothesis Rb : rect r 1 b.
  Let b1 := track_x row_add ops b.
  Let Rb1 : rect r 1 b1. Proof. apply track_rect; auto. Qed.
  Definition xval (n j : nat) : bool := xsum (fun t => Nat.eqb j (pc t) && get b1 t 0) n.
  Lemma xval_pc : forall n t, t < n -> n <= k -> xval n (pc t) = get b1 t 0.
  Proof.
    intros n t Ht Hn. unfold xval. rewrite (xsum_one _ n t Ht); [rewrite Nat.eqb_refl; reflexivity|].
    intros s Hs N. destruct (Nat.eqb_spec (pc t) (pc s)) as [E|]; [|reflexivity]. exfalso. apply N. apply (proj1 (NoDup_nth own 0) own_nodup); auto; lia.
  Qed.
  Lemma solve_loop_ok : forall n i x, i + n = r -> rect c 1 x -> (forall j, j < c -> get x j 0 = xval (Nat.min i k) j) ->
    (exists x', solve_loop (skipn i m') (skipn i b1) x = Some x' /\ rect c 1 x' /\ (forall j, j < c -> get x' j 0 = xval k j) /\ forall t, i <= t < r -> k <= t -> get b1 t 0 = false) \/
    (solve_loop (skipn i m') (skipn i b1) x = None /\ exists t, k <= t < r /\ get b1 t 0 = true).
  Proof.
    induction n as [|n IH]; intros i x E Rx Hx.
    - assert (L : length m' = r) by apply Sm'. rewrite skipn_all2 by lia. left. exists x. split; auto. split; auto. split.
      + intros j Hj. rewrite Hx by auto. rewrite Nat.min_r by lia. reflexivity.
      + intros; lia.
    - assert (L : length m' = r) by apply Sm'. assert (L1 : length b1 = r) by apply Rb1.
      rewrite (skipn_cons _ m' i []) by lia. cbn [solve_loop]. fold (row m' i). rewrite lead_row.
      assert (BI : nth 0 (nth 0 (skipn i b1) []) false = get b1 i 0) by (rewrite (skipn_cons _ b1 i []) by lia; reflexivity).
      rewrite BI, tl_skipn. destruct (Nat.ltb_spec i k) as [Hk|Hk].
      + assert (Hp := e_lt _ _ _ HE i Hk). destruct (IH (S i) (upd (pc i) [get b1 i 0] x)) as [[x' [A1 [A2 [A3 A4]]]]|A].
        * lia.
        * split; [rewrite upd_length; apply Rx|]. intros y Hy. apply upd_in in Hy. destruct Hy as [->|Hy]; [reflexivity|apply Rx; auto].
        * intros j Hj. unfold get at 1, row. rewrite nth_upd. rewrite (proj1 Rx). rewrite (proj2 (Nat.ltb_lt (pc i) c)) by auto. rewrite andb_true_r.
          rewrite !Nat.min_l by lia. unfold xval. cbn [xsum]. fold (xval i j). destruct (Nat.eqb_spec j (pc i)) as [->|].
          { cbn [nth]. assert (Z : xval i (pc i) = false).
            { unfold xval. apply xsum_zero. intros t Ht. destruct (Nat.eqb_spec (pc i) (pc t)) as [E1|]; [|reflexivity].
              assert (X := e_inc _ _ _ HE t i Ht Hk). lia. }
            rewrite Z, xorb_false_l. reflexivity. }
          { cbn [andb]. rewrite xorb_false_r. specialize (Hx j Hj). rewrite Nat.min_l in Hx by lia. exact Hx. }
        * left. exists x'. split; auto. split; auto. split; auto. intros t Ht Hkt. apply A4; lia.
        * right. auto.
      + destruct (get b1 i 0) eqn:BV.
        * right. split; auto. exists i. split; [lia|auto].
        * destruct (IH (S i) x) as [[x' [A1 [A2 [A3 A4]]]]|A]; auto; try lia.
          { intros j Hj. rewrite Hx by auto. rewrite !Nat.min_r by lia. reflexivity. }
          left. exists x'. split; auto. split; auto. split; auto. intros t Ht Hkt. destruct (Nat.eq_dec t i) as [->|]; auto. apply A4; lia.
  Qed.
  Lemma zeros_rect : rect c 1 (mat_zeros c 1).
  Proof. apply (map_seq_rect c 1 (fun _ _ => false)). Qed.
  (** entry [i] of the product of a matrix with a column *)
  Definition colprod (a : mat) (x : nat -> bool) (i : nat) : bool := xsum (fun j => get a i j && x j) (cols a).
  Lemma solve_run : (exists x', solve_loop m' b1 (mat_zeros (cols m') 1) = Some x' /\ rect c 1 x' /\ forall i, i < r -> colprod m (fun j => get x' j 0) i = get b i 0) \/
    (solve_loop m' b1 (mat_zeros (cols m') 1) = None /\ ~ exists x : nat -> bool, forall i, i < r -> colprod m x i = get b i 0).
  Proof.
    rewrite (proj2 Sm'). destruct (solve_loop_ok r 0 (mat_zeros c 1)) as [[x' [A1 [A2 [A3 A4]]]]|[A1 [t [Ht Bt]]]]; auto using zeros_rect.
    - intros j Hj. simpl. unfold mat_zeros. rewrite (get_map_seq c 1 (fun _ _ => false)); auto.
    - left. exists x'. simpl in A1. split; auto. split; auto. intros i Hi.
      assert (XM : forall t, t < k -> xsum (fun j => get m' t j && get x' j 0) c = get b1 t 0).
      { intros t Ht. rewrite (xsum_ext _ (fun j => xsum (fun s => (Nat.eqb j (pc s) && get m' t j) && get b1 s 0) k)).
        - rewrite xsum_swap. rewrite (xsum_one _ k t Ht).
          + rewrite xsum_and, xsum_delta. rewrite (proj2 (Nat.ltb_lt _ _) (e_lt _ _ _ HE t Ht)), (e_one _ _ _ HE t Ht). reflexivity.
          + intros s Hs N. rewrite xsum_and, xsum_delta. rewrite (HF s t) by auto. rewrite andb_false_r. reflexivity.
        - intros j Hj. rewrite A3 by auto. unfold xval. rewrite <- xsum_andl. apply xsum_ext. intros s _.
          destruct (get m' t j), (Nat.eqb j (pc s)), (get b1 s 0); reflexivity. }
      unfold colprod. rewrite (xsum_ext _ (fun j => xsum (fun t => get gi i t && (get m' t j && get x' j 0)) k)).
      + rewrite xsum_swap. rewrite (xsum_ext _ (fun t => get gi i t && get b1 t 0)).
        * assert (Sb : shape r 1 b) by (apply rect_shape; auto; lia). assert (X := ops_undo r 1 ops b Sb Fops). fold gi b1 in X.
          transitivity (get (mat_mul gi b1) i 0); [|rewrite X; reflexivity]. rewrite (mul_get r r 1) by (auto; apply track_shape; auto). symmetry. apply xsum_trunc; auto.
          intros t Ht. rewrite A4 by lia. apply andb_false_r.
        * intros t Ht. rewrite xsum_andl, XM by auto. reflexivity.
      + intros j Hj. rewrite (m_from m m' ops own W HR HE i j Hi Hj). rewrite <- xsum_and. apply xsum_ext. intros t _. symmetry. apply andb_assoc.
    - right. simpl in A1. split; auto. intros [x Hx]. assert (Sb : shape r 1 b) by (apply rect_shape; auto; lia).
      assert (X := ops_apply r 1 ops b Sb Fops). fold b1 g in X.
      assert (Y : get b1 t 0 = xsum (fun i => get g t i && get b i 0) r) by (rewrite X; apply (mul_get r r 1); auto; lia).
      rewrite (xsum_ext _ (fun i => xsum (fun j => (get g t i && get m i j) && x j) c)) in Y.
      + rewrite xsum_swap in Y. rewrite (xsum_zero _ c) in Y; [congruence|]. intros j Hj. rewrite xsum_and.
        assert (MF := m'_from m m' ops W HR t j ltac:(lia) Hj). fold g in MF. rewrite <- MF. rewrite (e_rest _ _ _ HE) by lia. reflexivity.
      + intros i Hi. rewrite <- (Hx i Hi). unfold colprod. rewrite <- xsum_andl. apply xsum_ext. intros j _. apply andb_assoc.
  Qed.
End Use.

(** ** nullspace *)
Fixpoint xsuml (f : nat -> bool) (l : list nat) : bool := match l with [] => false | x :: l => xorb (f x) (xsuml f l) end.
Lemma xsuml_perm : forall f l l', Permutation l l' -> xsuml f l = xsuml f l'.
Proof. intros f l l' P. induction P; simpl; try congruence. destruct (f x), (f y), (xsuml f l); reflexivity. Qed.
Lemma xsuml_app : forall f l l', xsuml f (l ++ l') = xorb (xsuml f l) (xsuml f l').
Proof. induction l as [|x l IH]; intros l'; simpl; [destruct (xsuml f l'); reflexivity|]. rewrite IH, xorb_assoc. reflexivity. Qed.
Lemma xsuml_seq : forall f n, xsuml f (seq 0 n) = xsum f n.
Proof. induction n; auto. rewrite seq_S, xsuml_app, IHn. simpl. rewrite xorb_false_r. reflexivity. Qed.
Lemma xsuml_nth : forall f l, xsuml f l = xsum (fun p => f (nth p l 0)) (length l).
Proof.
  intros f l. rewrite <- xsuml_seq. assert (E : l = map (fun p => nth p l 0) (seq 0 (length l))).
  { apply nth_ext with (d := 0) (d' := 0); [rewrite map_length, seq_length; auto|]. intros n Hn. rewrite nth_map_seq; auto. }
  rewrite E at 1. clear E. generalize (seq 0 (length l)). induction l0; simpl; congruence.
Qed.

Lemma nodup_app : forall A (l l' : list A), NoDup l -> NoDup l' -> (forall x, In x l -> ~ In x l') -> NoDup (l ++ l').
Proof.
  induction l as [|x l IH]; intros l' N N' H; auto. simpl. inversion N; subst. constructor.
  - rewrite in_app_iff. intros [X|X]; [auto|]. apply (H x (or_introl eq_refl)). auto.
  - apply IH; auto. intros y Hy. apply H. right. auto.
Qed.
Definition nonpiv (own : list nat) (c : nat) : list nat := filter (fun j => negb (existsb (Nat.eqb j) own)) (seq 0 c).
Lemma nonpiv_in : forall own c j, In j (nonpiv own c) <-> j < c /\ ~ In j own.
Proof.
  intros. unfold nonpiv. rewrite filter_In, in_seq, negb_true_iff. split; intros [A B]; (split; [lia|]).
  - intros H. enough (existsb (Nat.eqb j) own = true) by congruence. apply existsb_exists. exists j. split; auto. apply Nat.eqb_refl.
  - destruct (existsb (Nat.eqb j) own) eqn:E; auto. apply existsb_exists in E. destruct E as [x [Hx E]]. apply Nat.eqb_eq in E. subst. contradiction.
Qed.
Lemma nonpiv_nodup : forall own c, NoDup (nonpiv own c).
Proof. intros. apply NoDup_filter, seq_NoDup. Qed.
Lemma pivots_perm : forall own c, NoDup own -> (forall p, In p own -> p < c) -> Permutation (seq 0 c) (own ++ nonpiv own c).
Proof.
  intros own c N H. apply NoDup_Permutation; [apply seq_NoDup| |].
  - apply nodup_app; auto; [apply nonpiv_nodup|]. intros x Hx Hx'. apply nonpiv_in in Hx'. tauto.
  - intros x. rewrite in_seq, in_app_iff, nonpiv_in. split.
    + intros Hx. destruct (in_dec Nat.eq_dec x own); [left; auto|right; split; auto; lia].
    + intros [Hx|Hx]; [apply H in Hx; lia|lia].
Qed.
Lemma xsum_split : forall f own c, NoDup own -> (forall p, In p own -> p < c) ->
  xsum f c = xorb (xsum (fun t => f (nth t own 0)) (length own)) (xsum (fun p => f (nth p (nonpiv own c) 0)) (length (nonpiv own c))).
Proof. intros. rewrite <- xsuml_seq, (xsuml_perm _ _ _ (pivots_perm own c H H0)), xsuml_app, !xsuml_nth. reflexivity. Qed.

Lemma remove_first_filter : forall j l, In j l -> NoDup l -> remove_first j l = Ok (filter (fun x => negb (Nat.eqb x j)) l).
Proof.
  induction l as [|x l IH]; intros H N; [destruct H|]. inversion N as [|? ? N1 N2]; subst. simpl. destruct (Nat.eqb_spec x j) as [->|Nx]; simpl.
  - f_equal. symmetry. clear IH H N N2. induction l as [|y l IH]; auto. simpl in *. destruct (Nat.eqb_spec y j) as [->|]; simpl; [exfalso; auto|]. rewrite IH at 1; auto.
  - destruct H as [->|H]; [congruence|]. rewrite IH; auto.
Qed.
Lemma filter_filter : forall A (p q : A -> bool) l, filter p (filter q l) = filter (fun x => q x && p x) l.
Proof. induction l as [|x l IH]; auto. simpl. destruct (q x); simpl; [destruct (p x)|]; simpl; congruence. Qed.

Section Null.
  Variables (m m' : mat) (ops : list (nat * nat)) (own : list nat).
  Hypothesis W : wfm m.
  Hypothesis HR : reach (rows m) (cols m) m (m', ops).
  Hypothesis HE : ech m' own (cols m).
  Hypothesis HF : forall i i', i < length own -> i' <> i -> get m' i' (nth i own 0) = false.
  Notation r := (rows m). Notation c := (cols m). Notation k := (length own). Notation pc i := (nth i own 0).
  Let gi := track_y col_add ops (mat_id r).
  Let Sm' : shape r c m'. Proof. apply (m'_shape m m' ops); auto. Qed.
  Let kr : k <= r. Proof. apply (rk_le m m' ops own); auto. Qed.
  Let ND : NoDup own. Proof. eapply own_nodup; eauto. Qed.
  Let OL : forall p, In p own -> p < c. Proof. eapply own_in; eauto. Qed.
  Notation np := (nonpiv own c).
  Lemma scan_ok : forall n i, i + n = r ->
    foldM (fun st rw => match lead rw with None => Ok st | Some j => let* p := remove_first j (fst st) in Ok (p, snd st ++ [j]) end) (skipn i m')
      (nonpiv (firstn (Nat.min i k) own) c, firstn (Nat.min i k) own) = Ok (np, own).
  Proof.
    induction n as [|n IH]; intros i E; assert (L : length m' = r) by apply Sm'.
    - rewrite skipn_all2 by lia. rewrite Nat.min_r by lia. rewrite firstn_all. reflexivity.
    - rewrite (skipn_cons _ m' i []) by lia. cbn [foldM]. fold (row m' i). rewrite (lead_row m m' ops own W HR HE i).
      destruct (Nat.ltb_spec i k) as [Hk|Hk].
      + cbn [fst snd]. rewrite Nat.min_l by lia. assert (IN : ~ In (pc i) (firstn i own)).
        { intros X. destruct (In_nth _ _ 0 X) as [t [Ht Et]]. rewrite firstn_length in Ht. rewrite nth_firstn in Et || idtac.
          assert (Et' : pc t = pc i) by (rewrite <- Et; rewrite <- (firstn_skipn i own) at 1; rewrite app_nth1; [reflexivity|rewrite firstn_length; lia]).
          assert (X' := e_inc _ _ _ HE t i ltac:(lia) Hk). lia. }
        assert (FS : firstn (S i) own = firstn i own ++ [pc i]).
        { clear -Hk. revert i Hk. induction own as [|x l IHl]; intros i Hk; simpl in Hk; [lia|]. destruct i; [reflexivity|]. simpl. f_equal. apply IHl. lia. }
        rewrite remove_first_filter; [|apply nonpiv_in; split; [apply (e_lt _ _ _ HE); auto|auto]|apply nonpiv_nodup]. cbn [bind].
        specialize (IH (S i) ltac:(lia)). rewrite Nat.min_l in IH by lia. rewrite FS in IH. rewrite <- IH. f_equal. f_equal.
        unfold nonpiv. rewrite filter_filter. apply filter_ext. intros a. rewrite existsb_app. simpl. rewrite orb_false_r, negb_orb. reflexivity.
      + specialize (IH (S i) ltac:(lia)). rewrite Nat.min_r in * by lia. exact IH.
  Qed.
  Lemma scan_run : ns_scan m' (seq 0 c) = Ok (np, own).
  Proof.
    assert (X := scan_ok r 0 eq_refl). simpl in X. unfold ns_scan. rewrite <- X. f_equal. f_equal. unfold nonpiv. simpl.
    generalize (seq 0 c). induction l as [|x l IH]; auto. simpl. congruence.
  Qed.

  Definition nsv n j : bool := xorb (Nat.eqb j n) (xsum (fun t => Nat.eqb j (pc t) && get m' t n) k).
  Lemma ns_fold : forall q i v, i + q = k -> forall n, ~ In n own -> length v = c ->
    (forall j, j < c -> nth j v false = xorb (Nat.eqb j n) (xsum (fun t => Nat.eqb j (pc t) && get m' t n) i)) ->
    let v' := fold_left (fun v rp => if nth n (fst rp) false then upd (snd rp) true v else v) (combine (skipn i m') (skipn i own)) v in
    length v' = c /\ forall j, j < c -> nth j v' false = nsv n j.
  Proof.
    induction q as [|q IH]; intros i v E n Hn Lv Hv.
    - rewrite (skipn_all2 own) by lia. rewrite combine_nil. simpl. split; auto. intros j Hj. rewrite Hv by auto. unfold nsv. replace i with k by lia. reflexivity.
    - rewrite (skipn_cons _ m' i []) by (rewrite (proj1 (proj1 Sm')); lia). rewrite (skipn_cons _ own i 0) by lia. cbn [combine fold_left fst snd].
      apply IH; auto; [lia| |].
      + destruct (nth n (nth i m' []) false); auto. rewrite upd_length. auto.
      + intros j Hj. cbn [xsum]. change (nth n (nth i m' []) false) with (get m' i n). destruct (get m' i n) eqn:G.
        * rewrite nth_upd, Lv. rewrite (proj2 (Nat.ltb_lt _ _) (e_lt _ _ _ HE i ltac:(lia))), andb_true_r. destruct (Nat.eqb_spec j (pc i)) as [->|Nj].
          { cbn [andb]. destruct (Nat.eqb_spec (pc i) n) as [X|_]; [exfalso; apply Hn; rewrite <- X; apply nth_In; lia|].
            rewrite xsum_zero; [reflexivity|]. intros t Ht. destruct (Nat.eqb_spec (pc i) (pc t)) as [E1|]; [|reflexivity].
            assert (X := e_inc _ _ _ HE t i Ht ltac:(lia)). lia. }
          { cbn [andb]. rewrite xorb_false_r. apply Hv; auto. }
        * rewrite andb_false_r, xorb_false_r. apply Hv; auto.
  Qed.
  Lemma ns_vec : forall n, In n np -> length (ns_vector m' own c n) = c /\ forall j, j < c -> nth j (ns_vector m' own c n) false = nsv n j.
  Proof.
    intros n Hn. apply nonpiv_in in Hn. unfold ns_vector. apply (ns_fold k 0 (upd n true (repeat false c))); auto; try tauto.
    - rewrite upd_length, repeat_length. auto.
    - intros j Hj. simpl. rewrite nth_upd, repeat_length. rewrite (proj2 (Nat.ltb_lt n c)) by tauto. rewrite andb_true_r, xorb_false_r.
      destruct (Nat.eqb j n); auto. destruct (Nat.lt_ge_cases j c); [|lia]. apply nth_repeat.
  Qed.
  Lemma np_nth : forall p, p < length np -> nth p np 0 < c /\ ~ In (nth p np 0) own.
  Proof. intros p Hp. apply nonpiv_in. apply nth_In. auto. Qed.
  Lemma nsv_np : forall n j, ~ In j own -> nsv n j = Nat.eqb j n.
  Proof.
    intros n j Hj. unfold nsv. rewrite xsum_zero; [apply xorb_false_r|]. intros t Ht. destruct (Nat.eqb_spec j (pc t)) as [->|]; [|reflexivity].
    exfalso. apply Hj. apply nth_In. auto.
  Qed.
  Lemma nsv_pc : forall n t, ~ In n own -> t < k -> nsv n (pc t) = get m' t n.
  Proof.
    intros n t Hn Ht. unfold nsv. destruct (Nat.eqb_spec (pc t) n) as [X|_]; [exfalso; apply Hn; rewrite <- X; apply nth_In; auto|].
    rewrite xorb_false_l, (xsum_one _ k t Ht); [rewrite Nat.eqb_refl; reflexivity|]. intros s Hs N.
    destruct (Nat.eqb_spec (pc t) (pc s)) as [E|]; [|reflexivity]. exfalso. apply N. symmetry. apply (proj1 (NoDup_nth own 0) ND); auto.
  Qed.
  Lemma pivot_row : forall x t, t < k -> xsum (fun j => get m' t j && x j) c = xorb (x (pc t)) (xsum (fun p => get m' t (nth p np 0) && x (nth p np 0)) (length np)).
  Proof.
    intros x t Ht. rewrite (xsum_split _ own c ND OL). f_equal. rewrite (xsum_one _ k t Ht); [rewrite (e_one _ _ _ HE t Ht); reflexivity|].
    intros s Hs N. rewrite (HF s t) by auto. reflexivity.
  Qed.
  Lemma kernel_iff : forall x, (forall i, i < r -> colprod m x i = false) <-> (forall t, t < k -> xsum (fun j => get m' t j && x j) c = false).
  Proof.
    intros x. split.
    - intros H t Ht. rewrite (xsum_ext _ (fun j => xsum (fun i => get (track_x row_add ops (mat_id r)) t i && (get m i j && x j)) r)).
      + rewrite xsum_swap. apply xsum_zero. intros i Hi. rewrite xsum_andl. specialize (H i Hi). unfold colprod in H. rewrite H. apply andb_false_r.
      + intros j Hj. rewrite (m'_from m m' ops W HR t j) by lia. rewrite <- xsum_and. apply xsum_ext. intros i _. symmetry. apply andb_assoc.
    - intros H i Hi. unfold colprod. rewrite (xsum_ext _ (fun j => xsum (fun t => get gi i t && (get m' t j && x j)) k)).
      + rewrite xsum_swap. apply xsum_zero. intros t Ht. rewrite xsum_andl, H by auto. apply andb_false_r.
      + intros j Hj. rewrite (m_from m m' ops own W HR HE i j Hi Hj). rewrite <- xsum_and. apply xsum_ext. intros t _. symmetry. apply andb_assoc.
  Qed.
  Lemma np_inj : forall p q, p < length np -> q < length np -> Nat.eqb (nth p np 0) (nth q np 0) = Nat.eqb p q.
  Proof.
    intros p q Hp Hq. destruct (Nat.eqb_spec p q) as [->|N]; [apply Nat.eqb_refl|]. apply Nat.eqb_neq. intros E. apply N.
    apply (proj1 (NoDup_nth np 0) (nonpiv_nodup own c)); auto.
  Qed.
  Notation vs := (map (ns_vector m' own c) np).
  Lemma vs_get : forall p j, p < length np -> j < c -> nth j (nth p vs []) false = nsv (nth p np 0) j.
  Proof. intros p j Hp Hj. rewrite (nth_map_in _ _ (ns_vector m' own c) np p 0 []) by auto. apply ns_vec; auto. apply nth_In. auto. Qed.
  Lemma null_kernel : forall p, p < length np -> forall i, i < r -> colprod m (fun j => nth j (nth p vs []) false) i = false.
  Proof.
    intros p Hp. assert (Q := np_nth p Hp). apply kernel_iff. intros t Ht. rewrite pivot_row by auto. rewrite vs_get by (auto; apply (e_lt _ _ _ HE); auto).
    rewrite nsv_pc by tauto. rewrite (xsum_one _ (length np) p Hp).
    - rewrite vs_get by tauto. rewrite nsv_np by tauto. rewrite Nat.eqb_refl, andb_true_r. apply xorb_nilpotent.
    - intros q Hq N. assert (Q' := np_nth q Hq). rewrite vs_get by tauto. rewrite nsv_np by tauto. rewrite np_inj by auto.
      destruct (Nat.eqb_spec q p); [congruence|apply andb_false_r].
  Qed.
  Definition comb (us : list (list bool)) (u : nat -> bool) (j : nat) : bool := xsum (fun p => u p && nth j (nth p us []) false) (length us).
  Lemma comb_np : forall u q, q < length np -> comb vs u (nth q np 0) = u q.
  Proof.
    intros u q Hq. assert (Q := np_nth q Hq). unfold comb. rewrite map_length. rewrite (xsum_one _ (length np) q Hq).
    - rewrite vs_get by tauto. rewrite nsv_np by tauto. rewrite Nat.eqb_refl. apply andb_true_r.
    - intros p Hp N. rewrite vs_get by tauto. rewrite nsv_np by tauto. rewrite np_inj by auto. destruct (Nat.eqb_spec q p); [congruence|apply andb_false_r].
  Qed.
  Lemma null_indep : forall u, (forall j, j < c -> comb vs u j = false) -> forall p, p < length vs -> u p = false.
  Proof. intros u H p Hp. rewrite map_length in Hp. rewrite <- (comb_np u p Hp). apply H. apply np_nth. auto. Qed.
  Lemma null_span : forall x, (forall i, i < r -> colprod m x i = false) -> exists u, forall j, j < c -> x j = comb vs u j.
  Proof.
    intros x K. assert (K' := proj1 (kernel_iff x) K); clear K; rename K' into K. exists (fun p => x (nth p np 0)). intros j Hj.
    destruct (in_dec Nat.eq_dec j own) as [I|I].
    - destruct (In_nth _ _ 0 I) as [t [Ht <-]]. specialize (K t Ht). rewrite pivot_row in K by auto. apply xorb_eq in K. rewrite K.
      unfold comb. rewrite map_length. apply xsum_ext. intros p Hp. assert (Q := np_nth p Hp). rewrite vs_get by tauto. rewrite nsv_pc by tauto. apply andb_comm.
    - assert (J : In j np) by (apply nonpiv_in; auto). destruct (In_nth _ _ 0 J) as [q [Hq <-]]. rewrite comb_np by auto. reflexivity.
  Qed.
  Lemma null_count : length vs + k = c.
  Proof. rewrite map_length. assert (P := Permutation_length (pivots_perm own c ND OL)). rewrite seq_length, app_length in P. lia. Qed.
End Null.
