(** Gaussian elimination over Z2: proofs about the model of linalg.py. *)
From Coq Require Import List Bool Arith NArith Lia.
From Verif Require Import Base LinModel.
Import ListNotations.

(** every row has length [c], and there are [r] rows *)
Definition rect (r c : nat) (m : mat) : Prop := length m = r /\ forall x, In x m -> length x = c.

Lemma upd_length : forall A i (x : A) l, length (upd i x l) = length l.
Proof. intros A i x l. revert i. induction l as [|y l IH]; intros [|i]; simpl; auto. Qed.
Lemma nth_upd : forall A i j (x d : A) l, nth i (upd j x l) d = if Nat.eqb i j && Nat.ltb j (length l) then x else nth i l d.
Proof.
  intros A i j x d l. revert i j. induction l as [|y l IH]; intros i j.
  - simpl. rewrite andb_false_r. reflexivity.
  - destruct j as [|j], i as [|i]; simpl; auto. rewrite IH. reflexivity.
Qed.
Lemma upd_in : forall A i (x y : A) l, In y (upd i x l) -> y = x \/ In y l.
Proof. intros A i x y l. revert i. induction l as [|z l IH]; intros [|i] H; simpl in *; intuition. destruct (IH _ H0); auto. Qed.
Lemma xorl_length : forall a b, length a = length b -> length (xorl a b) = length b.
Proof. induction a as [|v a IH]; intros [|w b] H; simpl in *; auto; try discriminate. Qed.
Lemma xorl_nth : forall a b j, length a = length b -> nth j (xorl a b) false = xorb (nth j b false) (nth j a false).
Proof.
  induction a as [|v a IH]; intros [|w b] j H; simpl in *; try discriminate.
  - destruct j; reflexivity.
  - destruct j; [destruct v, w; reflexivity|]. apply IH. lia.
Qed.
Lemma rect_row : forall r c m i, rect r c m -> i < r -> length (row m i) = c.
Proof. intros r c m i [L H] Hi. apply H. apply nth_In. lia. Qed.
Lemma get_out_r : forall r c m i j, rect r c m -> r <= i -> get m i j = false.
Proof. intros r c m i j [L H] Hi. unfold get, row. rewrite (nth_overflow m) by lia. destruct j; reflexivity. Qed.
Lemma get_out_c : forall r c m i j, rect r c m -> c <= j -> get m i j = false.
Proof.
  intros r c m i j R Hj. destruct (Nat.ltb_spec i r).
  - unfold get. apply nth_overflow. rewrite (rect_row r c); auto.
  - apply (get_out_r r c); auto.
Qed.
Lemma row_add_rect : forall r c a b m, rect r c m -> a < r -> b < r -> rect r c (row_add a b m).
Proof.
  intros r c a b m R Ha Hb. split; unfold row_add.
  - rewrite upd_length. apply R.
  - intros x Hx. apply upd_in in Hx. destruct Hx as [->|Hx]; [|apply R; auto].
    rewrite xorl_length; rewrite ?(rect_row r c) by auto; auto.
Qed.
Lemma get_row_add : forall r c a b m i j, rect r c m -> a < r -> b < r ->
  get (row_add a b m) i j = if Nat.eqb i b then xorb (get m b j) (get m a j) else get m i j.
Proof.
  intros r c a b m i j R Ha Hb. unfold get at 1, row, row_add. rewrite nth_upd. destruct R as [L RR].
  rewrite L. destruct (Nat.ltb_spec b r); [|lia]. rewrite andb_true_r.
  destruct (Nat.eqb_spec i b); auto. rewrite xorl_nth; auto.
  rewrite !(rect_row r c); auto; split; auto.
Qed.

Lemma mat_ext : forall r c m n, rect r c m -> rect r c n -> (forall i j, i < r -> j < c -> get m i j = get n i j) -> m = n.
Proof.
  intros r c m n [L1 R1] [L2 R2] H. apply (nth_ext m n [] []); [congruence|]. intros i Hi.
  apply (nth_ext _ _ false false).
  - rewrite (R1 (nth i m [])), (R2 (nth i n [])); auto; apply nth_In; lia.
  - intros j Hj. apply H; [lia|]. rewrite R1 in Hj; auto. apply nth_In; auto.
Qed.

(** ** Row operations *)
Definition opok (r : nat) (ab : nat * nat) : Prop := fst ab < r /\ snd ab < r /\ fst ab <> snd ab.
Lemma track_x_app : forall X radd o1 o2 (x : X), track_x radd (o1 ++ o2) x = track_x radd o2 (track_x radd o1 x).
Proof. intros. unfold track_x. apply fold_left_app. Qed.
Lemma track_y_app : forall X cadd o1 o2 (x : X), track_y cadd (o1 ++ o2) x = track_y cadd o2 (track_y cadd o1 x).
Proof. intros. unfold track_y. apply fold_left_app. Qed.

Section Elim.
  Variables (r c : nat) (m0 : mat).
  Hypothesis R0 : rect r c m0.
  (** the state is reached from [m0] by proper row operations *)
  Definition reach (s : gst) : Prop := rect r c (fst s) /\ fst s = track_x row_add (snd s) m0 /\ Forall (opok r) (snd s).
  Lemma reach_add : forall a b s, reach s -> a < r -> b < r -> a <> b -> reach (g_add a b s).
  Proof.
    intros a b [m ops] [H1 [H2 H3]] Ha Hb N. unfold g_add. simpl in *. split; [|split]; simpl.
    - apply row_add_rect; auto.
    - rewrite track_x_app, <- H2. reflexivity.
    - apply Forall_app. split; auto. constructor; [|constructor]. split; auto.
  Qed.

  (** ** The duplicate-chunk phase *)
  Lemma chunk_find_in : forall t ch x, chunk_find t ch = Some x -> exists t', In (t', x) ch.
  Proof.
    induction ch as [|[t' y] ch IH]; intros x H; simpl in H; [discriminate|]. destruct (beql t t').
    - injection H as ->. exists t'. left. reflexivity.
    - destruct (IH x H) as [t2 H2]. exists t2. right. exact H2.
  Qed.
  Lemma chunk_phase_inv : forall (P : gst -> Prop) i0 i1 rs s,
    (forall pre a b post s, rs = pre ++ b :: post -> In a pre -> P s -> P (g_add a b s)) -> P s -> P (chunk_phase i0 i1 rs s).
  Proof.
    intros P i0 i1 rs s HP Hs. unfold chunk_phase.
    assert (G : forall post pre st, rs = pre ++ post -> P (fst st) -> (forall t x, In (t, x) (snd st) -> In x pre) ->
              P (fst (fold_left (chunk_step i0 i1) post st))).
    { induction post as [|b post IH]; intros pre [s1 ch] E Hp Hc; simpl; auto.
      apply (IH (pre ++ [b])); [rewrite <- app_assoc; exact E| |].
      - unfold chunk_step. destruct (negb _); auto. destruct (chunk_find _ ch) as [r'|] eqn:F; auto. simpl.
        destruct (chunk_find_in _ _ _ F) as [t' Ht']. eapply HP; [exact E| |exact Hp]. apply (Hc t'). exact Ht'.
      - intros t x Hx. unfold chunk_step in Hx. apply in_or_app. destruct (negb _); [left; eapply Hc; exact Hx|].
        destruct (chunk_find _ ch) as [r'|] eqn:F; simpl in Hx; [left; eapply Hc; exact Hx|].
        apply in_app_or in Hx. destruct Hx as [Hx|[Hx|[]]]; [left; eapply Hc; exact Hx|]. injection Hx as _ <-. right. left. reflexivity. }
    apply (G rs [] (s, [])); auto.
  Qed.
  Lemma seq_split_lt : forall n k pre a b post, seq k n = pre ++ b :: post -> In a pre -> k <= a /\ a < b /\ b < k + n.
  Proof.
    induction n as [|n IH]; intros k pre a b post E I; simpl in E.
    - destruct pre; discriminate.
    - destruct pre as [|x pre]; [destruct I|]. injection E as <- E. destruct I as [<-|I].
      + assert (In b (seq (S k) n)) by (rewrite E; apply in_or_app; right; left; auto). apply in_seq in H. lia.
      + specialize (IH _ _ _ _ _ E I). lia.
  Qed.
  Lemma rev_seq_split_lt : forall n pre a b post, rev (seq 0 n) = pre ++ b :: post -> In a pre -> b < a < n.
  Proof.
    intros n pre a b post E I. apply (f_equal (@rev nat)) in E. rewrite rev_involutive, rev_app_distr in E. simpl in E. rewrite <- app_assoc in E.
    simpl in E. apply in_split in I. destruct I as [l1 [l2 ->]]. rewrite rev_app_distr in E. simpl in E. rewrite <- app_assoc in E. simpl in E.
    assert (X := seq_split_lt n 0 (rev post ++ b :: rev l2) b a (rev l1)).
    rewrite <- app_assoc in X. simpl in X. specialize (X E). assert (In b (rev post ++ b :: rev l2)) by (apply in_or_app; right; left; auto). specialize (X H). lia.
  Qed.

  (** ** First pass: columns below [q] are in echelon form *)
  Notation pc own i := (nth i own 0).
  Record ech (m : mat) (own : list nat) (q : nat) : Prop := {
    e_inc : forall i j, i < j -> j < length own -> pc own i < pc own j;
    e_lt : forall i, i < length own -> pc own i < q;
    e_one : forall i, i < length own -> get m i (pc own i) = true;
    e_zero : forall i j, i < length own -> j < pc own i -> get m i j = false;
    e_rest : forall i j, length own <= i -> j < q -> get m i j = false }.
  Lemma ech_rows : forall m own q, rect r c m -> ech m own q -> length own <= r.
  Proof.
    intros m own q R E. destruct (Nat.leb_spec (length own) r); auto. assert (X := e_one _ _ _ E r ltac:(lia)).
    rewrite (get_out_r r c) in X; auto. discriminate.
  Qed.
  Definition ok1 (own : list nat) (q : nat) (s : gst) : Prop := reach s /\ ech (fst s) own q.
  Lemma ech_low_add : forall own q s a b, ok1 own q s -> length own <= a -> length own <= b -> a < r -> b < r -> a <> b -> ok1 own q (g_add a b s).
  Proof.
    intros own q [m ops] a b [HR HE] Ha Hb Ra Rb N. split; [apply reach_add; auto|]. simpl in *.
    assert (RM : rect r c m) by apply HR.
    constructor; intros; rewrite ?(get_row_add r c) by auto.
    - eapply e_inc; eauto.
    - eapply e_lt; eauto.
    - destruct (Nat.eqb_spec i b); [lia|]. eapply e_one; eauto.
    - destruct (Nat.eqb_spec i b); [lia|]. eapply e_zero; eauto.
    - destruct (Nat.eqb_spec i b); rewrite ?(e_rest _ _ _ HE) by auto; auto.
  Qed.
  Lemma chunk1 : forall own q i0 i1 s, ok1 own q s -> ok1 own q (chunk_phase i0 i1 (seq (length own) (r - length own)) s).
  Proof.
    intros own q i0 i1 s H. apply (chunk_phase_inv (ok1 own q)); auto. intros pre a b post s1 E I H1.
    destruct (seq_split_lt _ _ _ _ _ _ E I) as [A [B D]]. assert (length own <= r) by (eapply ech_rows; [apply H1|apply H1]). apply ech_low_add; auto; lia.
  Qed.
  (** clearing below the pivot *)
  Lemma clear_fold : forall own q p n k s, ok1 own q s -> length own < k -> k + n <= r -> get (fst s) (length own) p = true ->
    let s' := fold_left (clear_step (length own) p) (seq k n) s in
    ok1 own q s' /\ (forall i, i < k \/ k + n <= i -> forall j, get (fst s') i j = get (fst s) i j) /\
    (forall i, k <= i < k + n -> get (fst s') i p = false).
  Proof.
    intros own q p n. induction n as [|n IH]; intros k s H Hk Hn T; simpl.
    - split; auto. split; [auto|]. intros i Hi. lia.
    - set (s1 := clear_step (length own) p s k).
      assert (S1 : ok1 own q s1 /\ (forall i, i <> k -> forall j, get (fst s1) i j = get (fst s) i j) /\ get (fst s1) k p = false).
      { unfold s1, clear_step. destruct (Nat.eqb_spec (length own) k); [lia|]. simpl. destruct (get (fst s) k p) eqn:G.
        - split; [apply ech_low_add; auto; lia|]. assert (RM : rect r c (fst s)) by apply H. split.
          + intros i Ni j. simpl. rewrite (get_row_add r c) by (auto; lia). destruct (Nat.eqb_spec i k); [lia|reflexivity].
          + simpl. rewrite (get_row_add r c) by (auto; lia). rewrite Nat.eqb_refl, G, T. reflexivity.
        - split; auto. }
      destruct S1 as [H1 [H2 H3]].
      destruct (IH (S k) s1 H1) as [A [B D]]; try lia. { rewrite H2 by lia. exact T. }
      split; [exact A|]. split.
      + intros i Hi j. rewrite B by lia. apply H2. lia.
      + intros i Hi. destruct (Nat.eq_dec i k) as [->|]; [rewrite B by lia; exact H3|]. apply D. lia.
  Qed.
  Lemma find_seq : forall (f : nat -> bool) n k x, find f (seq k n) = Some x -> k <= x < k + n /\ f x = true /\ forall y, k <= y < x -> f y = false.
  Proof.
    induction n as [|n IH]; intros k x H; simpl in H; [discriminate|]. destruct (f k) eqn:F.
    - injection H as <-. repeat split; auto; try lia.
    - destruct (IH _ _ H) as [A [B D]]. repeat split; auto; try lia. intros y Hy. destruct (Nat.eq_dec y k) as [->|]; auto. apply D; lia.
  Qed.
  Lemma find_seq_none : forall (f : nat -> bool) n k, find f (seq k n) = None -> forall y, k <= y < k + n -> f y = false.
  Proof. intros f n k H y Hy. apply (find_none _ _ H). apply in_seq. exact Hy. Qed.

  (** state of the first pass; [h] is the initial content of pivot_cols *)
  Definition pass1 (h : list nat) (q : nat) (st : fst_state) (own : list nat) : Prop :=
    ok1 own q (fst (fst st)) /\ snd (fst st) = length own /\ snd st = h ++ own.
  Lemma col_step_ok : forall h p st own, pass1 h p st own -> p < c -> exists own', pass1 h (S p) (col_step r st p) own'.
  Proof.
    intros h p [[s piv] pcs] own [H [H2 H3]] Hp. simpl in H, H2, H3. subst piv pcs. unfold col_step, find_row.
    assert (RM : rect r c (fst s)) by apply H. assert (LR := ech_rows _ _ _ RM (proj2 H)).
    destruct (find _ _) as [r0|] eqn:F.
    - destruct (find_seq _ _ _ _ F) as [A [B D]]. set (k := length own) in *.
      set (s1 := if Nat.eqb r0 k then s else g_add r0 k s).
      assert (S1 : ok1 own p s1 /\ get (fst s1) k p = true).
      { unfold s1. destruct (Nat.eqb_spec r0 k) as [->|N]; [split; auto|]. split; [apply ech_low_add; auto; unfold k in *; lia|].
        simpl. rewrite (get_row_add r c) by (auto; lia). rewrite Nat.eqb_refl, B, (D k) by lia. reflexivity. }
      destruct S1 as [H1 T].
      assert (CF := clear_fold own p p (r - (k + 1)) (k + 1) s1 H1). fold k in CF. simpl in CF.
      destruct CF as [K1 [K2 K3]]; try lia; auto.
      exists (own ++ [p]). split; [|split]; simpl.
      + set (s2 := fold_left _ _ s1) in *. split; [apply K1|]. assert (E2 := proj2 K1).
        assert (LA : length (own ++ [p]) = S k) by (rewrite app_length; simpl; unfold k; lia).
        assert (NL : forall i, i < k -> nth i (own ++ [p]) 0 = nth i own 0) by (intros; apply app_nth1; auto).
        assert (NK : nth k (own ++ [p]) 0 = p) by (unfold k; rewrite nth_middle; reflexivity).
        constructor; rewrite ?LA.
        * intros i j Hij Hj. rewrite NL by lia. destruct (Nat.eq_dec j k) as [->|]; [rewrite NK; apply (e_lt _ _ _ E2); lia|]. rewrite NL by lia. apply (e_inc _ _ _ E2); auto. fold k; lia.
        * intros i Hi. destruct (Nat.eq_dec i k) as [->|]; [rewrite NK; lia|]. rewrite NL by lia. assert (X := e_lt _ _ _ E2 i). fold k in X. lia.
        * intros i Hi. destruct (Nat.eq_dec i k) as [->|]; [rewrite NK, K2 by lia; exact T|]. rewrite NL by lia. apply (e_one _ _ _ E2). fold k; lia.
        * intros i j Hi Hj. destruct (Nat.eq_dec i k) as [->|]; [rewrite NK in Hj; apply (e_rest _ _ _ E2); auto|]. rewrite NL in Hj by lia. apply (e_zero _ _ _ E2); auto. fold k; lia.
        * intros i j Hi Hj. assert (j < p \/ j = p) as [X| ->] by lia; [apply (e_rest _ _ _ E2); auto; fold k; lia|].
          destruct (Nat.ltb_spec i r); [apply K3; lia|]. apply (get_out_r r c); [apply K1|lia].
      + rewrite app_length. simpl. unfold k. lia.
      + rewrite app_assoc. reflexivity.
    - exists own. split; [|split]; auto. simpl. split; [apply H|]. assert (E := proj2 H).
      constructor; try apply E.
      + intros i Hi. assert (X := e_lt _ _ _ E i Hi). lia.
      + intros i j Hi Hj. assert (j < p \/ j = p) as [X| ->] by lia; [apply (e_rest _ _ _ E); auto|].
        destruct (Nat.ltb_spec i r); [|apply (get_out_r r c); auto]. apply (find_seq_none _ _ _ F i). lia.
  Qed.
  Lemma cols_fold : forall h n p st own, pass1 h p st own -> p + n <= c -> exists own', pass1 h (p + n) (fold_left (col_step r) (seq p n) st) own'.
  Proof.
    intros h n. induction n as [|n IH]; intros p st own H Hn; simpl; [exists own; rewrite Nat.add_0_r; auto|].
    destruct (col_step_ok h p st own H) as [own1 H1]; [lia|]. destruct (IH (S p) _ _ H1) as [own2 H2]; [lia|].
    exists own2. replace (p + S n) with (S p + n) by lia. exact H2.
  Qed.
  Lemma sec_step_ok : forall h bs sec st own, pass1 h (Nat.min c (sec * bs)) st own -> exists own', pass1 h (Nat.min c ((sec + 1) * bs)) (sec_step r c bs st sec) own'.
  Proof.
    intros h bs sec [[s piv] pcs] own [H [H2 H3]]. simpl in H, H2, H3. subst piv pcs. unfold sec_step.
    set (i0 := sec * bs) in *. set (i1 := Nat.min c ((sec + 1) * bs)) in *.
    destruct (Nat.leb_spec i0 c).
    - rewrite Nat.min_r in H by lia. assert (EI : i0 + (i1 - i0) = i1) by (unfold i1, i0; nia).
      destruct (cols_fold h (i1 - i0) i0 (chunk_phase i0 i1 (seq (length own) (r - length own)) s, length own, h ++ own) own) as [own' HO].
      { split; [|split]; auto. simpl. apply chunk1. exact H. }
      { unfold i1, i0; nia. }
      exists own'. rewrite EI in HO. exact HO.
    - rewrite Nat.min_l in H by lia. replace (i1 - i0) with 0 by (unfold i1; lia). simpl. exists own. split; [|split]; auto. simpl.
      replace i1 with c by (unfold i1, i0 in *; nia). apply chunk1. exact H.
  Qed.
  Lemma secs_fold : forall h bs n sec st own, pass1 h (Nat.min c (sec * bs)) st own ->
    exists own', pass1 h (Nat.min c ((sec + n) * bs)) (fold_left (sec_step r c bs) (seq sec n) st) own'.
  Proof.
    intros h bs n. induction n as [|n IH]; intros sec st own H; simpl; [exists own; rewrite Nat.add_0_r; auto|].
    destruct (sec_step_ok h bs sec st own H) as [own1 H1]. rewrite Nat.add_1_r in H1. destruct (IH (S sec) _ _ H1) as [own2 H2].
    exists own2. replace (sec + S n) with (S sec + n) by lia. exact H2.
  Qed.
  Lemma nsec_cover : forall bs, bs <> 0 -> c <= nsec c bs * bs.
  Proof.
    intros bs Hb. unfold nsec. assert (X := Nat.div_mod (c + bs - 1) bs Hb). assert (Y := Nat.mod_upper_bound (c + bs - 1) bs Hb). nia.
  Qed.

  (** ** Second pass *)
  (** the pivot columns of the rows from [k] on are cleared in all other rows *)
  Definition ok2 (own : list nat) (k : nat) (s : gst) : Prop :=
    ok1 own c s /\ forall i, k <= i < length own -> forall i', i' <> i -> get (fst s) i' (pc own i) = false.
  Lemma up_add : forall own k s a b, ok2 own k s -> b < a -> a < k -> k <= length own -> ok2 own k (g_add a b s).
  Proof.
    intros own k [m ops] a b [[HR HE] HC] Hab Ha Hk. assert (RM : rect r c m) by apply HR. assert (LR := ech_rows _ _ _ RM HE).
    split; [split; [apply reach_add; auto; lia|]|]; simpl in *.
    - constructor; intros; rewrite ?(get_row_add r c) by (auto; lia).
      + eapply e_inc; eauto.
      + eapply e_lt; eauto.
      + destruct (Nat.eqb_spec i b) as [->|]; [|eapply e_one; eauto].
        assert (X := e_inc _ _ _ HE b a Hab ltac:(lia)). rewrite (e_one _ _ _ HE), (e_zero _ _ _ HE) by (auto; lia). reflexivity.
      + destruct (Nat.eqb_spec i b) as [->|]; [|eapply e_zero; eauto].
        assert (X := e_inc _ _ _ HE b a Hab ltac:(lia)). rewrite !(e_zero _ _ _ HE) by (auto; lia). reflexivity.
      + destruct (Nat.eqb_spec i b); [lia|]. eapply e_rest; eauto.
    - intros i Hi i' N. rewrite (get_row_add r c) by (auto; lia). destruct (Nat.eqb_spec i' b) as [->|]; [|apply HC; auto].
      rewrite !HC by (auto; lia). reflexivity.
  Qed.
  Lemma chunk2 : forall own k i0 i1 s, ok2 own k s -> k <= length own -> ok2 own k (chunk_phase i0 i1 (rev (seq 0 k)) s).
  Proof.
    intros own k i0 i1 s H Hk. apply (chunk_phase_inv (ok2 own k)); auto. intros pre a b post s1 E I H1.
    destruct (rev_seq_split_lt _ _ _ _ _ E I) as [A B]. apply up_add; auto.
  Qed.
  Lemma up_fold : forall own k n b s, ok2 own (S k) s -> S k <= length own -> b + n <= k ->
    let s' := fold_left (up_clear k (pc own k)) (seq b n) s in
    ok2 own (S k) s' /\ (forall i, i < b \/ b + n <= i -> forall j, get (fst s') i j = get (fst s) i j) /\
    (forall i, b <= i < b + n -> get (fst s') i (pc own k) = false).
  Proof.
    intros own k n. induction n as [|n IH]; intros b s H Hk Hn; simpl.
    - split; auto. split; auto. intros; lia.
    - set (s1 := up_clear k (pc own k) s b).
      assert (S1 : ok2 own (S k) s1 /\ (forall i, i <> b -> forall j, get (fst s1) i j = get (fst s) i j) /\ get (fst s1) b (pc own k) = false).
      { unfold s1, up_clear. destruct (get (fst s) b (pc own k)) eqn:G.
        - split; [apply up_add; auto; lia|]. destruct H as [[HR HE] HC]. assert (RM : rect r c (fst s)) by apply HR. assert (LR := ech_rows _ _ _ RM HE). split.
          + intros i Ni j. simpl. rewrite (get_row_add r c) by (auto; lia). destruct (Nat.eqb_spec i b); [lia|reflexivity].
          + simpl. rewrite (get_row_add r c) by (auto; lia). rewrite Nat.eqb_refl, G, (e_one _ _ _ HE) by lia. reflexivity.
        - split; auto. }
      destruct S1 as [H1 [H2 H3]]. destruct (IH (S b) s1 H1) as [A [B D]]; try lia.
      split; [exact A|]. split.
      + intros i Hi j. rewrite B by lia. apply H2. lia.
      + intros i Hi. destruct (Nat.eq_dec i b) as [->|]; [rewrite B by lia; exact H3|]. apply D. lia.
  Qed.
  Lemma rev_firstn_S : forall (own : list nat) k, S k <= length own -> rev (firstn (S k) own) = pc own k :: rev (firstn k own).
  Proof.
    intros own k H. assert (E : firstn (S k) own = firstn k own ++ [pc own k]).
    { revert k H. induction own as [|x own IH]; intros k H; simpl in H; [lia|]. destruct k; [reflexivity|]. simpl. rewrite <- IH by lia. reflexivity. }
    rewrite E, rev_app_distr. reflexivity.
  Qed.
  Lemma pop_loop_ok : forall own i0 i1 k s, ok2 own k s -> k <= length own -> (forall i, i < k -> pc own i < i1) ->
    exists k' s', pop_loop i0 i1 (rev (firstn k own)) k s = (rev (firstn k' own), k', s') /\ k' <= k /\ ok2 own k' s' /\ forall i, i < k' -> pc own i < i0.
  Proof.
    intros own i0 i1 k. induction k as [|k IH]; intros s H Hk Hi.
    - simpl. exists 0, s. split; auto. split; auto. split; auto. intros; lia.
    - rewrite rev_firstn_S by lia. cbn [pop_loop]. destruct (Nat.leb_spec i0 (pc own k)) as [L|L].
      + assert (X := Hi k ltac:(lia)). destruct (Nat.ltb_spec (pc own k) i1); [|lia]. cbn [andb].
        destruct (up_fold own k k 0 s H) as [A [B D]]; try lia. replace (S k - 1) with k by lia.
        set (s2 := fold_left _ _ s) in *.
        destruct (IH s2) as [k' [s' [E1 [E2 [E3 E4]]]]]; try lia.
        * split; [apply A|]. intros i Hi2 i' N. destruct (Nat.eq_dec i k) as [->|]; [|apply A; auto; lia].
          destruct (Nat.ltb_spec i' k); [apply D; lia|].
          assert (HE : ech (fst s2) own c) by apply A.
          destruct (Nat.ltb_spec i' (length own)).
          { apply (e_zero _ _ _ HE); auto. apply (e_inc _ _ _ HE); lia. }
          { apply (e_rest _ _ _ HE); auto. apply (e_lt _ _ _ HE). lia. }
        * intros i Hi2. apply Hi. lia.
        * exists k', s'. split; [exact E1|]. split; [lia|]. split; auto.
      + cbn [andb]. exists (S k), s. split; [rewrite rev_firstn_S by lia; reflexivity|]. split; auto. split; auto.
        intros i Hi2. assert (HE : ech (fst s) own c) by apply H. destruct (Nat.eq_dec i k) as [->|]; [lia|].
        assert (X := e_inc _ _ _ HE i k). lia.
  Qed.
  Lemma up_secs : forall own bs n s k, ok2 own k s -> k <= length own -> (forall i, i < k -> pc own i < n * bs) ->
    exists k' s', fold_left (up_sec c bs) (rev (seq 0 n)) (s, k, rev (firstn k own)) = (s', k', rev (firstn k' own)) /\ ok2 own k' s' /\
      forall i, i < k' -> pc own i < 0.
  Proof.
    intros own bs n. induction n as [|n IH]; intros s k H Hk Hi.
    - simpl. exists k, s. split; auto.
    - rewrite seq_S, rev_app_distr. cbn [rev app fold_left Nat.add].
      destruct (up_sec c bs (s, k, rev (firstn k own)) n) as [[s9 k9] st9] eqn:US. unfold up_sec in US.
      set (s1 := chunk_phase _ _ _ s) in US.
      assert (H1 : ok2 own k s1) by (apply chunk2; auto).
      destruct (pop_loop_ok own (n * bs) (Nat.min c ((n + 1) * bs)) k s1 H1 Hk) as [k' [s' [E1 [E2 [E3 E4]]]]].
      { intros i Hi2. assert (HE : ech (fst s) own c) by apply H. assert (X := e_lt _ _ _ HE i). specialize (Hi i Hi2). replace (n + 1) with (S n) by lia. apply Nat.min_glb_lt; [apply X; lia|exact Hi]. }
      rewrite E1 in US. injection US as <- <- <-. destruct (IH s' k' E3) as [k2 [s2 [F1 [F2 F3]]]]; try lia; auto.
      exists k2, s2. auto.
  Qed.
End Elim.

(** ** The contents of the default list do not matter *)
Definition shift (h : list nat) (st : fst_state) : fst_state := let '(s, piv, pcs) := st in (s, piv, h ++ pcs).
Lemma col_step_shift : forall h nr st p, col_step nr (shift h st) p = shift h (col_step nr st p).
Proof. intros h nr [[s piv] pcs] p. unfold col_step, shift. destruct (find_row _ _ _ _); auto. rewrite app_assoc. reflexivity. Qed.
Lemma cols_shift : forall h nr l st, fold_left (col_step nr) l (shift h st) = shift h (fold_left (col_step nr) l st).
Proof. intros h nr l. induction l as [|p l IH]; intros st; simpl; auto. rewrite col_step_shift. apply IH. Qed.
Lemma sec_step_shift : forall h nr nc bs st sec, sec_step nr nc bs (shift h st) sec = shift h (sec_step nr nc bs st sec).
Proof. intros h nr nc bs [[s piv] pcs] sec. unfold sec_step. cbn [shift]. rewrite <- cols_shift. reflexivity. Qed.
Lemma secs_shift : forall h nr nc bs l st, fold_left (sec_step nr nc bs) l (shift h st) = shift h (fold_left (sec_step nr nc bs) l st).
Proof. intros h nr nc bs l. induction l as [|p l IH]; intros st; simpl; auto. rewrite sec_step_shift. apply IH. Qed.
Lemma pop_nil : forall i0 i1 st s, exists st', pop_loop i0 i1 st 0 s = (st', 0, s).
Proof.
  intros i0 i1 st s. induction st as [|x st IH]; simpl; [eexists; reflexivity|]. destruct (_ && _); [exact IH|eexists; reflexivity].
Qed.
Lemma pop_shift : forall i0 i1 A st s, exists A' s' st', pop_loop i0 i1 A (length A) s = (A', length A', s') /\
  pop_loop i0 i1 (A ++ st) (length A) s = (A' ++ st', length A', s') /\ (A' <> [] -> st' = st).
Proof.
  intros i0 i1 A st. induction A as [|x A IH]; intros s.
  - simpl. destruct (pop_nil i0 i1 st s) as [st' E]. exists [], s, st'. split; auto. split; auto. intros N; congruence.
  - cbn [pop_loop app length]. destruct (_ && _); [|exists (x :: A), s, st; auto].
    replace (S (length A) - 1) with (length A) by lia. apply IH.
Qed.
Lemma up_shift : forall nc bs l A st s, exists A' s' st',
  fold_left (up_sec nc bs) l (s, length A, A) = (s', length A', A') /\
  fold_left (up_sec nc bs) l (s, length A, A ++ st) = (s', length A', A' ++ st').
Proof.
  intros nc bs l. induction l as [|sec l IH]; intros A st s; [exists A, s, st; auto|]. cbn [fold_left].
  unfold up_sec at 2 4. set (s1 := chunk_phase _ _ _ s).
  destruct (pop_shift (sec * bs) (Nat.min nc ((sec + 1) * bs)) A st s1) as [A' [s' [st' [E1 [E2 E3]]]]].
  rewrite E1, E2. apply IH.
Qed.
Theorem gauss_history : forall full bs h m o, gauss full bs [] m = Ok o ->
  gauss full bs h m = Ok (mkGO (go_mat o) (go_ops o) (go_rank o) (h ++ go_pcs o)).
Proof.
  intros full bs h m o H. unfold gauss in *. destruct bs as [|bs]; [discriminate|]. cbv beta iota zeta in *. set (B := S bs) in *.
  assert (X := secs_shift h (rows m) (cols m) B (seq 0 (nsec (cols m) B)) (gauss_start [] m)).
  replace (shift h (gauss_start [] m)) with (gauss_start h m) in X by (unfold shift, gauss_start; rewrite app_nil_r; reflexivity). rewrite X. clear X.
  destruct (fold_left (sec_step _ _ _) _ _) as [[s piv] pcs] eqn:E. cbn [shift].
  destruct full; [|injection H as <-; reflexivity].
  assert (L : piv = length pcs).
  { assert (G : forall l s0 piv0 pcs0 s1 piv1 pcs1, piv0 = length pcs0 -> fold_left (sec_step (rows m) (cols m) B) l (s0, piv0, pcs0) = (s1, piv1, pcs1) -> piv1 = length pcs1).
    { assert (G0 : forall l s0 piv0 pcs0 s1 piv1 pcs1, piv0 = length pcs0 -> fold_left (col_step (rows m)) l (s0, piv0, pcs0) = (s1, piv1, pcs1) -> piv1 = length pcs1).
      { induction l as [|p l IH]; intros s0 piv0 pcs0 s1 piv1 pcs1 L F; cbn [fold_left] in F; [injection F as _ <- <-; auto|].
        unfold col_step at 2 in F. destruct (find_row _ _ _ _); [|eapply IH; eauto]. eapply IH; [|exact F]. rewrite app_length. simpl. lia. }
      induction l as [|p l IH]; intros s0 piv0 pcs0 s1 piv1 pcs1 L F; cbn [fold_left] in F; [injection F as _ <- <-; auto|].
      destruct (sec_step (rows m) (cols m) B (s0, piv0, pcs0) p) as [[s2 piv2] pcs2] eqn:SS. eapply IH; [|exact F].
      unfold sec_step in SS. eapply G0; [|exact SS]. exact L. }
    eapply (G _ (m, []) 0 []); [reflexivity|exact E]. }
  subst piv. rewrite <- (rev_length pcs) in *.
  destruct (up_shift (cols m) B (rev (seq 0 (nsec (cols m) B))) (rev pcs) (rev h) s) as [A' [s' [st' [E1 E2]]]].
  rewrite E1 in H. injection H as <-. rewrite rev_app_distr, E2. reflexivity.
Qed.

(** ** Result of the elimination *)
Definition wfm (m : mat) : Prop := rect (rows m) (cols m) m.
Theorem gauss_ok : forall full bs m, wfm m -> bs <> 0 -> exists o, gauss full bs [] m = Ok o /\
  reach (rows m) (cols m) m (go_mat o, go_ops o) /\ ech (go_mat o) (go_pcs o) (cols m) /\ go_rank o = length (go_pcs o) /\
  (full = true -> forall i i', i < length (go_pcs o) -> i' <> i -> get (go_mat o) i' (nth i (go_pcs o) 0) = false).
Proof.
  intros full bs m W Hb. unfold gauss. destruct bs as [|bs]; [congruence|]. cbv beta iota zeta. set (B := S bs) in *.
  set (r := rows m) in *. set (c := cols m) in *.
  destruct (secs_fold r c m [] B (nsec c B) 0 (gauss_start [] m) []) as [own [H1 [H2 H3]]].
  { split; [|split]; auto. simpl. split.
    - split; [exact W|]. split; [reflexivity|constructor].
    - constructor; simpl; intros; try lia. }
  destruct (fold_left (sec_step _ _ _) _ _) as [[s piv] pcs] eqn:E. cbn [fst snd app Nat.add] in H1, H2, H3. subst piv pcs.
  rewrite Nat.min_l in H1 by (apply nsec_cover; unfold B; lia).
  destruct full.
  - destruct (up_secs r c m own B (nsec c B) s (length own)) as [k' [s' [F1 [F2 F3]]]]; auto.
    { split; auto. intros; lia. }
    { intros i Hi. assert (X := e_lt _ _ _ (proj2 H1) i Hi). assert (Y := nsec_cover c B ltac:(unfold B; lia)). lia. }
    rewrite firstn_all in F1. rewrite F1. assert (k' = 0) by (destruct k'; auto; specialize (F3 0 ltac:(lia)); lia). subst k'.
    eexists. split; [reflexivity|]. simpl. split; [|split; [|split]]; auto.
    + destruct s'. apply F2.
    + apply F2.
    + intros _ i i' Hi N. apply F2; auto. lia.
  - eexists. split; [reflexivity|]. simpl. split; [|split; [|split]]; auto.
    + destruct s. apply H1.
    + apply H1.
    + discriminate.
Qed.
