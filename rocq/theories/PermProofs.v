(** permutation_as_swaps realises the permutation *)
From Coq Require Import List Bool Arith Lia Permutation.
From Verif Require Import Base LinModel LinProofs LinUse PermModel.
Import ListNotations.

(** *** Specification: swapping two positions of a list *)
Definition swap2 {A} (d : A) (a : list A) (ij : nat * nat) : list A :=
  map (fun p => nth (if Nat.eqb p (fst ij) then snd ij else if Nat.eqb p (snd ij) then fst ij else p) a d) (seq 0 (length a)).
Definition run_swaps {A} (d : A) (sw : list (nat * nat)) (a : list A) : list A := fold_left (swap2 d) sw a.
(** a dictionary describing a permutation of 0..n-1 *)
Definition perm_dict (p : list (nat * nat)) : Prop :=
  Permutation (map fst p) (seq 0 (length p)) /\ Permutation (map snd p) (seq 0 (length p)).

Lemma swap2_len : forall A (d : A) a ij, length (swap2 d a ij) = length a.
Proof. intros. unfold swap2. rewrite map_length, seq_length. auto. Qed.
Lemma swap2_nth : forall A (d : A) a i j p, p < length a -> nth p (swap2 d a (i, j)) d = nth (if Nat.eqb p i then j else if Nat.eqb p j then i else p) a d.
Proof. intros. unfold swap2. rewrite LinAlg.nth_map_seq; auto. Qed.
Lemma run_len : forall A (d : A) sw a, length (run_swaps d sw a) = length a.
Proof. induction sw as [|x sw IH]; intros a; auto. simpl. rewrite IH. apply swap2_len. Qed.

Lemma lget_nth : forall i l, i < length l -> lget i l = Ok (nth i l 0).
Proof. intros. unfold lget. rewrite (nth_error_nth' l 0 H). reflexivity. Qed.
Lemma lput_upd : forall i v l, i < length l -> lput i v l = Ok (upd i v l).
Proof. intros. unfold lput. rewrite (proj2 (Nat.ltb_lt _ _) H). reflexivity. Qed.

(** positions from [i] on still have to be moved, from [j] to [l[j]] *)
Record todo (n i : nat) (l linv : list nat) : Prop := {
  td_l : length l = n; td_v : length linv = n;
  td_1 : forall j, i <= j < n -> i <= nth j l 0 < n /\ nth (nth j l 0) linv 0 = j;
  td_2 : forall v, i <= v < n -> i <= nth v linv 0 < n /\ nth (nth v linv 0) l 0 = v }.
Lemma loop_ok : forall n k i l linv sw, i + k = n -> todo n i l linv -> exists l' linv' sw',
  foldM swap_step (seq i k) ((l, linv), sw) = Ok ((l', linv'), sw ++ sw') /\
  (forall ij, In ij sw' -> fst ij < snd ij < n) /\ (k <> 0 -> length sw' < k) /\ (k = 0 -> sw' = []) /\
  forall A (d : A) a, length a = n -> (forall j, i <= j < n -> nth (nth j l 0) (run_swaps d sw' a) d = nth j a d) /\ (forall j, j < i -> nth j (run_swaps d sw' a) d = nth j a d).
Proof.
  induction k as [|k IH]; intros i l linv sw E T; destruct T as [T1 T2 T3 T4].
  - exists l, linv, []. simpl. rewrite app_nil_r. split; [reflexivity|]. split; [intros ij []|]. split; [lia|]. split; auto. intros A d a La. split; [intros; lia|auto].
  - cbn [seq foldM]. unfold swap_step at 1. rewrite (lget_nth i l) by lia. cbn [bind].
    destruct (T3 i ltac:(lia)) as [B1 B2]. destruct (T4 i ltac:(lia)) as [B3 B4].
    destruct (Nat.eqb_spec (nth i l 0) i) as [F|F].
    + cbn [bind]. assert (T' : todo n (S i) l linv).
      { constructor; auto.
        - intros j Hj. destruct (T3 j ltac:(lia)) as [C1 C2]. split; auto. enough (nth j l 0 <> i) by lia. intros X. rewrite X in C2. rewrite F in B2. lia.
        - intros v Hv. destruct (T4 v ltac:(lia)) as [C1 C2]. split; auto. enough (nth v linv 0 <> i) by lia. intros X. rewrite X in C2. lia. }
      destruct (IH (S i) l linv sw ltac:(lia) T') as [l' [v' [sw' [R1 [R2 [R3 [R4 R5]]]]]]]. exists l', v', sw'. split; auto. split; auto.
      split; [intros _; destruct k; [rewrite (R4 eq_refl); simpl; lia|specialize (R3 ltac:(lia)); lia]|]. split; [lia|].
      intros A d a La. destruct (R5 A d a La) as [P1 P2]. split.
      * intros j Hj. destruct (Nat.eq_dec j i) as [->|]; [rewrite F; apply P2; lia|apply P1; lia].
      * intros j Hj. apply P2. lia.
    + rewrite (lget_nth i linv) by lia. cbn [bind]. set (t1 := nth i l 0) in *. set (t2 := nth i linv 0) in *.
      assert (N2 : t2 <> i) by (intros X; rewrite X in B4; fold t1 in B4; congruence).
      assert (K : k <> 0) by (intros ->; lia).
      rewrite lput_upd by lia. cbn [bind]. rewrite lput_upd by lia. cbn [bind].
      assert (T' : todo n (S i) (upd t2 t1 l) (upd t1 t2 linv)).
      { constructor; try (rewrite upd_length; auto).
        - intros j Hj. rewrite nth_upd, T1. rewrite (proj2 (Nat.ltb_lt t2 n)) by lia. rewrite andb_true_r. destruct (Nat.eqb_spec j t2) as [->|Nj].
          + split; [lia|]. rewrite nth_upd, T2. rewrite (proj2 (Nat.ltb_lt t1 n)) by lia. rewrite Nat.eqb_refl. reflexivity.
          + destruct (T3 j ltac:(lia)) as [C1 C2]. assert (nth j l 0 <> i) by (intros X; rewrite X in C2; fold t2 in C2; congruence).
            split; [lia|]. rewrite nth_upd, T2. rewrite (proj2 (Nat.ltb_lt t1 n)) by lia. rewrite andb_true_r.
            destruct (Nat.eqb_spec (nth j l 0) t1) as [X|]; auto. rewrite X, B2 in C2. lia.
        - intros v Hv. rewrite nth_upd, T2. rewrite (proj2 (Nat.ltb_lt t1 n)) by lia. rewrite andb_true_r. destruct (Nat.eqb_spec v t1) as [->|Nv].
          + split; [lia|]. rewrite nth_upd, T1. rewrite (proj2 (Nat.ltb_lt t2 n)) by lia. rewrite Nat.eqb_refl. reflexivity.
          + destruct (T4 v ltac:(lia)) as [C1 C2]. assert (nth v linv 0 <> i) by (intros X; rewrite X in C2; fold t1 in C2; congruence).
            split; [lia|]. rewrite nth_upd, T1. rewrite (proj2 (Nat.ltb_lt t2 n)) by lia. rewrite andb_true_r.
            destruct (Nat.eqb_spec (nth v linv 0) t2) as [X|]; auto. rewrite X, B4 in C2. lia. }
      destruct (IH (S i) _ _ (sw ++ [(i, t2)]) ltac:(lia) T') as [l' [v' [sw' [R1 [R2 [R3 [R4 R5]]]]]]].
      exists l', v', ((i, t2) :: sw'). split; [rewrite R1, <- app_assoc; reflexivity|]. split.
      { intros ij [<-|H]; [simpl; lia|auto]. }
      split; [intros _; simpl; specialize (R3 K); lia|]. split; [lia|].
      intros A d a La. cbn [run_swaps fold_left]. change (fold_left (swap2 d) sw' (swap2 d a (i, t2))) with (run_swaps d sw' (swap2 d a (i, t2))).
      destruct (R5 A d (swap2 d a (i, t2)) ltac:(rewrite swap2_len; auto)) as [P1 P2]. split.
      * intros j Hj. destruct (Nat.eq_dec j i) as [->|Nj].
        { fold t1. specialize (P1 t2 ltac:(lia)). rewrite nth_upd, T1 in P1. rewrite (proj2 (Nat.ltb_lt t2 n)) in P1 by lia. rewrite Nat.eqb_refl in P1. simpl andb in P1. cbv iota in P1.
          rewrite P1, swap2_nth by lia. rewrite Nat.eqb_refl. rewrite (proj2 (Nat.eqb_neq _ _) N2). reflexivity. }
        destruct (Nat.eq_dec j t2) as [->|Nj2].
        { rewrite B4. rewrite (P2 i ltac:(lia)), swap2_nth by lia. rewrite Nat.eqb_refl. reflexivity. }
        specialize (P1 j ltac:(lia)). rewrite nth_upd in P1. rewrite (proj2 (Nat.eqb_neq _ _) Nj2) in P1. simpl andb in P1. cbv iota in P1. rewrite P1, swap2_nth by lia.
        rewrite (proj2 (Nat.eqb_neq _ _) Nj), (proj2 (Nat.eqb_neq _ _) Nj2). reflexivity.
      * intros j Hj. rewrite (P2 j ltac:(lia)), swap2_nth by lia. rewrite (proj2 (Nat.eqb_neq j i)) by lia. rewrite (proj2 (Nat.eqb_neq j t2)) by lia. reflexivity.
Qed.

(** *** Dictionaries *)
Lemma dlook_in : forall d k v, NoDup (map fst d) -> (dlook k d = Ok v <-> In (k, v) d).
Proof.
  induction d as [|[k' v'] d IH]; intros k v N; simpl; [split; [discriminate|tauto]|]. inversion N as [|? ? N1 N2]; subst. destruct (Nat.eqb_spec k k') as [->|Nk].
  - split; [intros E; inversion E; auto|]. intros [E|H]; [inversion E; auto|]. exfalso. apply N1. apply in_map_iff. exists (k', v). auto.
  - rewrite IH by auto. split; auto. intros [E|H]; auto. inversion E; congruence.
Qed.
Lemma dlook_has : forall d k, In k (map fst d) -> exists v, dlook k d = Ok v.
Proof. induction d as [|[k' v'] d IH]; intros k H; [destruct H|]. simpl in *. destruct (Nat.eqb_spec k k'); eauto. destruct H; [congruence|auto]. Qed.
Lemma dput_new : forall d k v, ~ In k (map fst d) -> dput k v d = d ++ [(k, v)].
Proof. induction d as [|[k' v'] d IH]; intros k v H; auto. simpl in *. destruct (Nat.eqb_spec k k') as [->|]; [exfalso; auto|]. rewrite IH; auto. Qed.
Lemma dinv_eq : forall d, NoDup (map snd d) -> dinv d = map (fun kv => (snd kv, fst kv)) d.
Proof.
  intros d N. unfold dinv. enough (G : forall acc, NoDup (map fst acc ++ map snd d) -> fold_left (fun acc kv => dput (snd kv) (fst kv) acc) d acc = acc ++ map (fun kv => (snd kv, fst kv)) d) by (apply (G []); auto).
  clear N. induction d as [|[k v] d IH]; intros acc N; simpl; [rewrite app_nil_r; auto|]. simpl in N. rewrite dput_new.
  - rewrite IH; [rewrite <- app_assoc; reflexivity|]. rewrite map_app, <- app_assoc. exact N.
  - apply NoDup_remove_2 in N. intros X. apply N. apply in_or_app. auto.
Qed.
Lemma dlist_ok : forall d is, (forall i, In i is -> In i (map fst d)) -> exists l, dlist d is = Ok l /\ length l = length is /\ forall p, p < length is -> dlook (nth p is 0) d = Ok (nth p l 0).
Proof.
  induction is as [|i is IH]; intros H; simpl; [exists []; repeat split; auto; intros; lia|].
  destruct (dlook_has d i (H i (or_introl eq_refl))) as [v Ev]. rewrite Ev. cbn [bind]. destruct IH as [l [-> [L P]]]; [intros; apply H; right; auto|]. cbn [bind].
  exists (v :: l). split; auto. split; [simpl; auto|]. intros [|p] Hp; auto. apply P. lia.
Qed.

Theorem swaps_ok : forall p, perm_dict p -> exists sw, permutation_as_swaps p = Ok sw /\
  (forall ij, In ij sw -> fst ij < snd ij < length p) /\ (p <> [] -> length sw < length p) /\
  forall A (d : A) a, length a = length p -> forall i j, In (i, j) p -> nth j (run_swaps d sw a) d = nth i a d.
Proof.
  intros p [PK PV]. set (n := length p) in *. assert (NK : NoDup (map fst p)) by (apply (Permutation_NoDup (Permutation_sym PK)), seq_NoDup).
  assert (NV : NoDup (map snd p)) by (apply (Permutation_NoDup (Permutation_sym PV)), seq_NoDup).
  unfold permutation_as_swaps. fold n. destruct (dlist_ok p (seq 0 n)) as [l [El [Ll Pl]]]; [intros i Hi; apply (Permutation_in _ (Permutation_sym PK)); auto|].
  rewrite El. cbn [bind]. rewrite dinv_eq by auto. rewrite map_length. fold n.
  assert (FI : map fst (map (fun kv : nat * nat => (snd kv, fst kv)) p) = map snd p) by (rewrite map_map; reflexivity).
  destruct (dlist_ok (map (fun kv => (snd kv, fst kv)) p) (seq 0 n)) as [v [Ev [Lv Pv]]]; [intros i Hi; rewrite FI; apply (Permutation_in _ (Permutation_sym PV)); auto|].
  rewrite Ev. cbn [bind]. rewrite seq_length in *.
  assert (GL : forall j, j < n -> In (j, nth j l 0) p).
  { intros j Hj. specialize (Pl j Hj). rewrite seq_nth in Pl by auto. apply dlook_in in Pl; auto. }
  assert (GV : forall w, w < n -> In (nth w v 0, w) p).
  { intros w Hw. specialize (Pv w Hw). rewrite seq_nth in Pv by auto. apply dlook_in in Pv; [|rewrite FI; auto]. apply in_map_iff in Pv. destruct Pv as [[a b] [E H]]. simpl in E. inversion E; subst. auto. }
  assert (FU : forall i j j', In (i, j) p -> In (i, j') p -> j = j').
  { intros i j j' A B. apply dlook_in in A; auto. apply dlook_in in B; auto. congruence. }
  assert (FV : forall i i' j, In (i, j) p -> In (i', j) p -> i = i').
  { intros i i' j A B. assert (A' : In (j, i) (map (fun kv => (snd kv, fst kv)) p)) by (apply in_map_iff; exists (i, j); auto).
    assert (B' : In (j, i') (map (fun kv => (snd kv, fst kv)) p)) by (apply in_map_iff; exists (i', j); auto).
    apply dlook_in in A'; [|rewrite FI; auto]. apply dlook_in in B'; [|rewrite FI; auto]. congruence. }
  assert (RG : forall i j, In (i, j) p -> i < n /\ j < n).
  { intros i j H. split.
    - assert (X : In i (map fst p)) by (apply in_map_iff; exists (i, j); auto). apply (Permutation_in _ PK) in X. apply in_seq in X. lia.
    - assert (X : In j (map snd p)) by (apply in_map_iff; exists (i, j); auto). apply (Permutation_in _ PV) in X. apply in_seq in X. lia. }
  assert (T : todo n 0 l v).
  { constructor; auto.
    - intros j Hj. assert (A := GL j ltac:(lia)). assert (B := RG _ _ A). split; [lia|]. assert (C := GV (nth j l 0) ltac:(lia)). eapply FV; eauto.
    - intros w Hw. assert (A := GV w ltac:(lia)). assert (B := RG _ _ A). split; [lia|]. assert (C := GL (nth w v 0) ltac:(lia)). eapply FU; eauto. }
  destruct (loop_ok n n 0 l v [] eq_refl T) as [l' [v' [sw [R1 [R2 [R3 [R4 R5]]]]]]]. rewrite R1. cbn [bind snd app]. exists sw. split; auto. split; auto. split.
  - intros H. apply R3. unfold n. destruct p; simpl; congruence.
  - intros A d a La i j H. destruct (R5 A d a La) as [P1 _]. destruct (RG _ _ H) as [Hi Hj]. specialize (P1 i ltac:(lia)). rewrite (FU i j (nth i l 0) H (GL i Hi)). exact P1.
Qed.
(** swaps in the opposite order, as when they are prepended one by one *)
Lemma swap2_invol : forall A (d : A) a i j, i < length a -> j < length a -> swap2 d (swap2 d a (i, j)) (i, j) = a.
Proof.
  intros A d a i j Hi Hj. apply nth_ext with (d := d) (d' := d); [rewrite !swap2_len; auto|]. intros p Hp. rewrite !swap2_len in Hp. rewrite swap2_nth by (rewrite swap2_len; auto).
  destruct (Nat.eqb_spec p i) as [->|Ni].
  - rewrite swap2_nth by auto. destruct (Nat.eqb_spec j i) as [->|]; auto. rewrite Nat.eqb_refl. reflexivity.
  - destruct (Nat.eqb_spec p j) as [->|Nj]; rewrite swap2_nth by auto.
    + rewrite Nat.eqb_refl. reflexivity.
    + rewrite (proj2 (Nat.eqb_neq _ _) Ni), (proj2 (Nat.eqb_neq _ _) Nj). reflexivity.
Qed.
Lemma run_rev : forall A (d : A) sw a, (forall ij, In ij sw -> fst ij < length a /\ snd ij < length a) -> run_swaps d sw (run_swaps d (rev sw) a) = a.
Proof.
  induction sw as [|[i j] sw IH] using rev_ind; intros a H; auto. rewrite rev_app_distr. unfold run_swaps. rewrite fold_left_app. cbn [rev app fold_left].
  fold (run_swaps d (rev sw) (swap2 d a (i, j))). fold (run_swaps d sw (run_swaps d (rev sw) (swap2 d a (i, j)))). rewrite IH.
  - destruct (H (i, j)) as [Hi Hj]; [apply in_or_app; right; left; auto|]. apply swap2_invol; auto.
  - intros ij Hij. rewrite swap2_len. apply H. apply in_or_app. auto.
Qed.
Theorem swaps_rev : forall p sw, perm_dict p -> permutation_as_swaps p = Ok sw -> forall A (d : A) a, length a = length p ->
  forall i j, In (i, j) p -> nth i (run_swaps d (rev sw) a) d = nth j a d.
Proof.
  intros p sw HP E A d a La i j H. destruct (swaps_ok p HP) as [sw' [E' [R1 [_ R2]]]]. rewrite E in E'. inversion E'; subst sw'.
  rewrite <- (R2 A d (run_swaps d (rev sw) a) ltac:(rewrite run_len; auto) i j H). rewrite run_rev; auto. intros ij Hij. specialize (R1 ij Hij). lia.
Qed.
