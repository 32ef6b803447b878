(** Proofs about ToddModel: the TODD step keeps the third order signature. *)
From Coq Require Import ZArith List Bool Arith Lia Permutation.
From Verif Require Import Base LinModel LinProofs LinAlg LinUse LinFacts ToddModel.
Import ListNotations.
Open Scope nat_scope.

Lemma beql_eq : forall a b, beql a b = true <-> a = b.
Proof.
  induction a as [|x a IH]; intros [|y b]; simpl; split; intros H; try discriminate; auto.
  - apply andb_true_iff in H. destruct H as [H1 H2]. apply eqb_prop in H1. apply IH in H2. congruence.
  - inversion H; subst. rewrite Bool.eqb_reflx. simpl. apply IH. reflexivity.
Qed.
Lemma beql_refl : forall a, beql a a = true. Proof. intros a. apply beql_eq. reflexivity. Qed.

(** ** Specification: sums modulo 2 over columns *)
Fixpoint xs (F : list bool -> bool) (cs : list (list bool)) : bool :=
  match cs with [] => false | c :: cs => xorb (F c) (xs F cs) end.
Definition bit (c : list bool) (i : nat) : bool := nth i c false.
(** the product of three bits of a column; repeated indices give products of two and single bits *)
Definition mono (a b g : nat) (c : list bool) : bool := bit c a && bit c b && bit c g.
Definition sig_eq (n : nat) (cs cs' : list (list bool)) : Prop :=
  forall a b g, a < n -> b < n -> g < n -> xs (mono a b g) cs = xs (mono a b g) cs'.
Definition colsok (n : nat) (cs : list (list bool)) : Prop := forall c, In c cs -> length c = n.
(** no zero column, no two equal columns *)
Definition nontrivial (cs : list (list bool)) : Prop := NoDup cs /\ forall c, In c cs -> existsb (fun b => b) c = true.

Lemma sig_refl : forall n cs, sig_eq n cs cs. Proof. intros n cs a b g _ _ _. reflexivity. Qed.
Lemma sig_trans : forall n a b c, sig_eq n a b -> sig_eq n b c -> sig_eq n a c.
Proof. intros n a b c H1 H2 x y z Hx Hy Hz. rewrite H1; auto. Qed.
Lemma xs_perm : forall F l l', Permutation l l' -> xs F l = xs F l'.
Proof. intros F l l' P. induction P; simpl; auto; [rewrite IHP; auto| |congruence]. destruct (F x), (F y), (xs F l); auto. Qed.
Lemma xs_app : forall F l l', xs F (l ++ l') = xorb (xs F l) (xs F l').
Proof. intros F l l'. induction l as [|c l IH]; simpl. - destruct (xs F l'); auto. - rewrite IH. destruct (F c), (xs F l), (xs F l'); auto. Qed.
Lemma xs_xsum : forall F cs, xs F cs = xsum (fun j => F (nth j cs [])) (length cs).
Proof. intros F. induction cs as [|c cs IH]; auto. cbn [length]. rewrite xsum_shift. cbn [xs nth]. rewrite IH. reflexivity. Qed.
Lemma colsok_rect : forall n cs, colsok n cs -> rect (length cs) n cs.
Proof. intros n cs H. split; auto. Qed.

(** ** remove_trivial_cols *)
Lemma rm_dup_perm : forall c cs cs', rm_dup c cs = Some cs' -> Permutation cs (c :: cs').
Proof.
  intros c cs. induction cs as [|d cs IH]; intros cs' H; [discriminate|]. simpl in H. destruct (beql c d) eqn:E.
  - inversion H; subst. apply beql_eq in E. subst. reflexivity.
  - destruct (rm_dup c cs) as [r|] eqn:R; [|discriminate]. inversion H; subst. rewrite (IH r eq_refl). constructor.
Qed.
Lemma rm_dup_none : forall c cs, rm_dup c cs = None -> ~ In c cs.
Proof.
  intros c cs. induction cs as [|d cs IH]; intros H; [easy|]. simpl in H. destruct (beql c d) eqn:E; [discriminate|].
  destruct (rm_dup c cs) eqn:R; [discriminate|]. intros [->|X]; [rewrite beql_refl in E; discriminate|]. apply (IH eq_refl X).
Qed.
Lemma zero_bit : forall c i, existsb (fun b => b) c = false -> bit c i = false.
Proof.
  unfold bit. induction c as [|b c IH]; intros [|i] H; simpl in *; auto; apply orb_false_iff in H; destruct H; auto.
Qed.
(** what a round removes: a zero column, or two equal ones *)
Lemma rt_step_some : forall cs cs', rt_step cs = Some cs' ->
  exists c, (existsb (fun b => b) c = false /\ Permutation cs (c :: cs')) \/ Permutation cs (c :: c :: cs').
Proof.
  induction cs as [|c cs IH]; intros cs' H; [discriminate|]. simpl in H. destruct (existsb (fun b => b) c) eqn:E; simpl in H.
  - destruct (rm_dup c cs) as [r|] eqn:R.
    + inversion H; subst. exists c. right. constructor. apply rm_dup_perm. exact R.
    + destruct (rt_step cs) as [r|] eqn:T; [|discriminate]. inversion H; subst. destruct (IH r eq_refl) as [d [[Z P]|P]]; exists d; [left|right].
      * split; auto. rewrite P. constructor.
      * rewrite P. etransitivity; [apply perm_swap|]. constructor. constructor.
  - inversion H; subst. exists c. left. split; auto.
Qed.
Lemma rt_step_none : forall cs, rt_step cs = None -> nontrivial cs.
Proof.
  induction cs as [|c cs IH]; intros H; [split; [constructor|easy]|]. simpl in H. destruct (existsb (fun b => b) c) eqn:E; simpl in H; [|discriminate].
  destruct (rm_dup c cs) as [r|] eqn:R; [discriminate|]. destruct (rt_step cs) eqn:T; [discriminate|]. destruct (IH eq_refl) as [N Z]. split.
  - constructor; auto. apply rm_dup_none. exact R.
  - intros d [<-|X]; auto.
Qed.
Lemma rt_loop_ok : forall fuel cs, length cs <= fuel -> exists cs', rt_loop fuel cs = Ok cs' /\ nontrivial cs' /\
  length cs' <= length cs /\ (forall n, sig_eq n cs cs') /\ (forall c, In c cs' -> In c cs) /\
  (forall F, xs F cs = false -> (forall c, existsb (fun b => b) c = false -> F c = false) -> xs F cs' = false).
Proof.
  induction fuel as [|f IH]; intros cs L.
  - destruct cs; [|simpl in L; lia]. exists []. split; [reflexivity|]. split; [split; [constructor|easy]|]. split; [auto|]. split; [intros n; apply sig_refl|]. split; auto.
  - cbn [rt_loop]. destruct (rt_step cs) as [r|] eqn:R.
    + assert (X : length r < length cs /\ (forall n, sig_eq n cs r) /\ (forall c, In c r -> In c cs) /\ (forall F, xs F cs = false -> (forall c, existsb (fun b => b) c = false -> F c = false) -> xs F r = false)).
      { destruct (rt_step_some _ _ R) as [c [[Z P]|P]].
        - split; [rewrite (Permutation_length P); simpl; lia|]. split; [|split].
          + intros n x y g _ _ _. rewrite (xs_perm _ _ _ P). simpl. unfold mono at 1. rewrite (zero_bit c x Z). simpl. destruct (xs (mono x y g) r); auto.
          + intros d Hd. apply (Permutation_in d (Permutation_sym P)). right. exact Hd.
          + intros F HF HZ. rewrite (xs_perm _ _ _ P) in HF. simpl in HF. rewrite (HZ c Z) in HF. destruct (xs F r); auto.
        - split; [rewrite (Permutation_length P); simpl; lia|]. split; [|split].
          + intros n x y g _ _ _. rewrite (xs_perm _ _ _ P). simpl. destruct (mono x y g c), (xs (mono x y g) r); auto.
          + intros d Hd. apply (Permutation_in d (Permutation_sym P)). right. right. exact Hd.
          + intros F HF HZ. rewrite (xs_perm _ _ _ P) in HF. simpl in HF. destruct (F c), (xs F r); auto. }
      destruct X as [X1 [X2 [X3 X4]]]. destruct (IH r ltac:(lia)) as [cs' [A [B [D [E [F H]]]]]]. exists cs'. split; auto. split; auto. split; [lia|].
      split; [intros n; eapply sig_trans; [apply X2|apply E]|]. split; auto.
    + exists cs. split; auto. split; [apply rt_step_none; auto|]. split; auto. split; [intros n; apply sig_refl|]. auto.
Qed.
Lemma remove_trivial_ok : forall cs, exists cs', remove_trivial_cols cs = Ok cs' /\ nontrivial cs' /\ length cs' <= length cs /\
  (forall n, sig_eq n cs cs') /\ (forall c, In c cs' -> In c cs).
Proof. intros cs. destruct (rt_loop_ok (length cs) cs (le_n _)) as [cs' [A [B [D [E [F _]]]]]]. exists cs'. auto. Qed.
(** a column occurring an even number of times is gone *)
Definition occ (c : list bool) (cs : list (list bool)) : bool := xs (beql c) cs.
Lemma remove_trivial_odd : forall cs cs', remove_trivial_cols cs = Ok cs' -> forall c, In c cs' -> occ c cs = true.
Proof.
  intros cs cs' H c Hc. destruct (rt_loop_ok (length cs) cs (le_n _)) as [r [A [[N Z] [_ [_ [_ O]]]]]]. unfold remove_trivial_cols in H. rewrite A in H. inversion H; subst r.
  destruct (occ c cs) eqn:E; auto. exfalso. specialize (O (beql c) E). assert (X : xs (beql c) cs' = false).
  { apply O. intros d Hd. destruct (beql c d) eqn:B; auto. apply beql_eq in B. subst d. rewrite (Z c Hc) in Hd. discriminate. }
  clear - X N Hc. induction cs' as [|d l IH]; [destruct Hc|]. simpl in X. inversion N; subst. destruct (beql c d) eqn:B.
  - apply beql_eq in B. subst d. assert (Y : xs (beql c) l = false).
    { clear - H1. induction l as [|e l IH]; auto. simpl. destruct (beql c e) eqn:B; [apply beql_eq in B; subst; destruct H1; left; auto|]. simpl. rewrite IH; auto. intros Q. apply H1. right. exact Q. }
    rewrite Y in X. discriminate.
  - destruct Hc as [->|Hc]; [rewrite beql_refl in B; discriminate|]. rewrite xorb_false_l in X. exact (IH Hc H2 X).
Qed.

(** ** pop *)
Lemma pop_ok : forall (cs : list (list bool)) i, i < length cs -> exists cs', pop_at i cs = Ok cs' /\ length cs' = length cs - 1 /\
  (forall F, xs F cs = xorb (F (nth i cs [])) (xs F cs')) /\ (forall c, In c cs' -> In c cs) /\ (forall j, j < i -> nth j cs' [] = nth j cs []).
Proof.
  intros cs i H. unfold pop_at. rewrite (proj2 (Nat.ltb_lt _ _) H). eexists. split; [reflexivity|].
  assert (E : cs = firstn i cs ++ nth i cs [] :: skipn (S i) cs).
  { rewrite <- (firstn_skipn i cs) at 1. f_equal. apply skipn_cons. exact H. }
  split; [rewrite app_length, firstn_length, skipn_length; lia|]. split; [|split].
  - intros F. rewrite E at 1. rewrite !xs_app. simpl. destruct (xs F (firstn i cs)), (F (nth i cs [])), (xs F (match cs with [] => [] | _ :: l => skipn i l end)); auto.
  - intros c Hc. rewrite E. apply in_app_iff in Hc. apply in_app_iff. destruct Hc; [left|right; right]; auto.
  - intros j Hj. rewrite app_nth1 by (rewrite firstn_length; lia). rewrite E at 2. rewrite app_nth1; auto. rewrite firstn_length. lia.
Qed.

(** ** transpose *)
Lemma cols_rect : forall r c m, rect r c m -> r <> 0 -> cols m = c.
Proof. intros r c m [L F] H. destruct m as [|x m]; [simpl in L; lia|]. apply F. left. reflexivity. Qed.
Lemma transpose_rect : forall r c m, rect r c m -> r <> 0 -> rect c r (transpose m).
Proof.
  intros r c m R H. unfold transpose. rewrite (cols_rect r c m R H). replace (rows m) with r by (symmetry; apply R). apply map_seq_rect.
Qed.
Lemma transpose_get : forall r c m i j, rect r c m -> i < r -> j < c -> get (transpose m) j i = get m i j.
Proof.
  intros r c m i j R Hi Hj. unfold transpose. rewrite (cols_rect r c m R ltac:(lia)). replace (rows m) with r by (symmetry; apply R).
  rewrite get_map_seq; auto.
Qed.
Lemma transpose_invol : forall n cs, colsok n cs -> n <> 0 -> transpose (transpose cs) = cs.
Proof.
  intros n cs H Hn. destruct cs as [|c0 cs0] eqn:E; [reflexivity|]. rewrite <- E in *. assert (L : length cs <> 0) by (subst; simpl; lia).
  assert (R := colsok_rect n cs H). assert (T := transpose_rect _ _ _ R L). assert (T2 := transpose_rect _ _ _ T Hn).
  apply (mat_ext (length cs) n); auto. intros i j Hi Hj. rewrite (transpose_get n (length cs)); auto. apply (transpose_get (length cs) n); auto.
Qed.

(** ** xi *)
Section Xi.
  Variables (n : nat) (cs : list (list bool)).
  Hypothesis OK : colsok n cs.
  Hypothesis Hk : cs <> [].
  Hypothesis Hn : n <> 0.
  Let k := length cs.
  Let m := transpose cs.
  Lemma k_pos : k <> 0. Proof. unfold k. destruct cs; [easy|simpl; lia]. Qed.
  Lemma m_rect : rect n k m. Proof. apply transpose_rect; [apply colsok_rect; exact OK|apply k_pos]. Qed.
  Lemma m_rows : rows m = n. Proof. apply m_rect. Qed.
  Lemma m_cols : cols m = k. Proof. apply (cols_rect n k m m_rect Hn). Qed.
  Lemma m_bit : forall a j, a < n -> j < k -> nth j (row m a) false = bit (nth j cs []) a.
  Proof. intros a j Ha Hj. change (get m a j = get cs j a). apply (transpose_get k n); auto. apply colsok_rect. exact OK. Qed.
  Lemma row_len : forall a, a < n -> length (row m a) = k.
  Proof. intros a Ha. apply (rect_row n k); auto. apply m_rect. Qed.
  Lemma andl_len : forall a b, length a = k -> length b = k -> length (andl a b) = k.
  Proof. intros a b A B. unfold andl. rewrite map_length, combine_length, A, B. lia. Qed.
  Lemma andl_nth : forall a b j, length a = length b -> nth j (andl a b) false = nth j a false && nth j b false.
  Proof. induction a as [|x a IH]; intros [|y b] [|j] L; simpl in *; try discriminate; auto. change (nth j (andl a b) false = nth j a false && nth j b false). apply IH. lia. Qed.
  Lemma xi_in : forall z r, In r (xi m z) <-> (exists a b g, a < b < g /\ g < n /\ In r (xi_row m z a b g)) \/ In r m.
  Proof.
    intros z r. unfold xi. rewrite in_app_iff, m_rows. split; intros [H|H]; auto; left.
    - apply in_flat_map in H. destruct H as [a [Ha H]]. apply in_flat_map in H. destruct H as [b [Hb H]]. apply in_flat_map in H. destruct H as [g [Hg H]].
      apply in_seq in Ha. apply in_seq in Hb. apply in_seq in Hg. exists a, b, g. split; [lia|]. split; [lia|exact H].
    - destruct H as [a [b [g [L [G H]]]]]. apply in_flat_map. exists a. split; [apply in_seq; lia|]. apply in_flat_map. exists b. split; [apply in_seq; lia|].
      apply in_flat_map. exists g. split; [apply in_seq; lia|exact H].
  Qed.
  Lemma xi_row_len : forall z a b g r, a < n -> b < n -> g < n -> In r (xi_row m z a b g) -> length r = k.
  Proof.
    intros z a b g r Ha Hb Hg H. assert (X : forall u v, length u = k -> length v = k -> length (xorl u v) = k) by (intros u v U V; rewrite xorl_length; congruence).
    assert (A := row_len a Ha). assert (B := row_len b Hb). assert (G := row_len g Hg).
    unfold xi_row in H. destruct (nth a z false), (nth b z false), (nth g z false); simpl in H; destruct H as [<-|[]] || destruct H; repeat (apply X || apply andl_len); auto.
  Qed.
  Lemma xi_rect : forall z, rect (rows (xi m z)) k (xi m z).
  Proof.
    intros z. split; [reflexivity|]. intros r H. apply xi_in in H. destruct H as [[a [b [g [L [G H]]]]]|H].
    - apply (xi_row_len z a b g); auto; lia.
    - destruct m_rect as [_ F]. apply F. exact H.
  Qed.
  Lemma xi_rows_pos : forall z, rows (xi m z) <> 0.
  Proof. intros z. unfold xi, rows. rewrite app_length. assert (X := m_rows). unfold rows in X. lia. Qed.
  Lemma xi_wfm : forall z, wfm (xi m z).
  Proof. intros z. unfold wfm. rewrite (cols_rect _ _ _ (xi_rect z) (xi_rows_pos z)). apply xi_rect. Qed.
  Lemma xi_cols : forall z, cols (xi m z) = k. Proof. intros z. apply (cols_rect _ _ _ (xi_rect z) (xi_rows_pos z)). Qed.

  (** [dot y F]: the sum of F over the columns selected by y *)
  Definition dot (y : list bool) (F : list bool -> bool) : bool := xsum (fun j => F (nth j cs []) && nth j y false) k.
  Lemma null_row : forall z y r, (forall i, i < rows (xi m z) -> colprod (xi m z) (fun j => nth j y false) i = false) -> In r (xi m z) ->
    xsum (fun j => nth j r false && nth j y false) k = false.
  Proof.
    intros z y r N H. destruct (In_nth _ _ [] H) as [i [Hi E]]. specialize (N i Hi). unfold colprod in N. rewrite xi_cols in N. unfold get, row in N. rewrite E in N. exact N.
  Qed.
  Section Null.
    Variables (z y : list bool).
    Hypothesis N : forall i, i < rows (xi m z) -> colprod (xi m z) (fun j => nth j y false) i = false.
    Lemma null1 : forall a, a < n -> dot y (fun c => bit c a) = false.
    Proof.
      intros a Ha. unfold dot. etransitivity; [|apply (null_row z y (row m a) N)].
      - apply xsum_ext. intros j Hj. rewrite (m_bit a j Ha Hj). reflexivity.
      - apply xi_in. right. apply nth_In. change (a < rows m). rewrite m_rows. exact Ha.
    Qed.
    Definition third (a b g : nat) : bool :=
      xorb (bit z a && dot y (fun c => bit c b && bit c g)) (xorb (bit z b && dot y (fun c => bit c a && bit c g)) (bit z g && dot y (fun c => bit c a && bit c b))).
    Lemma third_one : forall a b g r, a < n -> b < n -> g < n -> In r (xi_row m z a b g) -> xsum (fun j => nth j r false && nth j y false) k = third a b g.
    Proof.
      intros a b g r Ha Hb Hg H. unfold third, dot, bit.
      assert (A := row_len a Ha). assert (B := row_len b Hb). assert (G := row_len g Hg).
      assert (AL := andl_len). assert (XL : forall u v, length u = k -> length v = k -> length (xorl u v) = k) by (intros u v U V; rewrite xorl_length; congruence).
      unfold xi_row in H. destruct (nth a z false), (nth b z false), (nth g z false); simpl in H; try (destruct H; fail); destruct H as [<-|[]]; cbn [andb];
        rewrite ?xorb_false_l, ?xorb_false_r; rewrite <- ?xsum_xor; apply xsum_ext; intros j Hj;
        rewrite ?xorl_nth by (rewrite ?xorl_length; repeat rewrite AL; auto; repeat rewrite AL; auto); rewrite ?andl_nth by congruence; rewrite !m_bit by auto; unfold bit;
        destruct (nth a (nth j cs []) false), (nth b (nth j cs []) false), (nth g (nth j cs []) false), (nth j y false); reflexivity.
    Qed.
    Lemma third_sorted : forall a b g, a < b -> b < g -> g < n -> third a b g = false.
    Proof.
      intros a b g L1 L2 L3. destruct (xi_row m z a b g) as [|r l] eqn:E.
      - unfold third, bit. unfold xi_row in E. destruct (nth a z false), (nth b z false), (nth g z false); simpl in E; try discriminate; reflexivity.
      - assert (I : In r (xi_row m z a b g)) by (rewrite E; left; reflexivity). rewrite <- (third_one a b g r) by (auto; lia).
        apply (null_row z y r N). apply xi_in. left. exists a, b, g. split; [lia|]. split; auto.
    Qed.
    Lemma dot_ext : forall F G, (forall c, F c = G c) -> dot y F = dot y G.
    Proof. intros F G E. apply xsum_ext. intros j _. rewrite E. reflexivity. Qed.
    Lemma third_sw1 : forall a b g, third a b g = third b a g.
    Proof.
      intros a b g. unfold third. rewrite (dot_ext (fun c => bit c b && bit c a) (fun c => bit c a && bit c b)) by (intros; apply andb_comm).
      destruct (bit z a && _), (bit z b && _), (bit z g && _); reflexivity.
    Qed.
    Lemma third_sw2 : forall a b g, third a b g = third a g b.
    Proof.
      intros a b g. unfold third. rewrite (dot_ext (fun c => bit c g && bit c b) (fun c => bit c b && bit c g)) by (intros; apply andb_comm).
      destruct (bit z a && _), (bit z b && _), (bit z g && _); reflexivity.
    Qed.
    Lemma third_dup : forall a g, a < n -> g < n -> third a a g = false.
    Proof.
      intros a g Ha Hg. unfold third. rewrite (dot_ext (fun c => bit c a && bit c a) (fun c => bit c a)) by (intros; apply andb_diag). rewrite (null1 a Ha).
      destruct (bit z a && _), (bit z g); reflexivity.
    Qed.
    Lemma third_all : forall a b g, a < n -> b < n -> g < n -> third a b g = false.
    Proof.
      intros a b g Ha Hb Hg.
      destruct (Nat.eq_dec a b) as [->|N1]; [apply third_dup; auto|].
      destruct (Nat.eq_dec b g) as [->|N2]; [rewrite third_sw1, third_sw2; apply third_dup; auto|].
      destruct (Nat.eq_dec a g) as [->|N3]; [rewrite third_sw2; apply third_dup; auto|].
      destruct (Nat.lt_ge_cases a b), (Nat.lt_ge_cases b g), (Nat.lt_ge_cases a g).
      all: solve [apply third_sorted; lia | rewrite third_sw1; apply third_sorted; lia | rewrite third_sw2; apply third_sorted; lia
                 | rewrite third_sw1, third_sw2; apply third_sorted; lia | rewrite third_sw2, third_sw1; apply third_sorted; lia
                 | rewrite third_sw1, third_sw2, third_sw1; apply third_sorted; lia | lia].
    Qed.
    (** adding z to the columns selected by y changes each sum by the product of the bits of z, as often as y has ones *)
    Definition addz (c : list bool) : list bool := map (fun vz : bool * bool => if snd vz then negb (fst vz) else fst vz) (combine c z).
    Lemma addz_bit : forall c i, length c = length z -> bit (addz c) i = xorb (bit c i) (bit z i).
    Proof.
      unfold bit, addz. clear. intros c. revert z. induction c as [|v c IH]; intros [|w z] [|i] L; simpl in *; try discriminate; auto.
      - destruct v, w; reflexivity.
    Qed.
    Lemma addz_len : forall c, length c = length z -> length (addz c) = length c.
    Proof. intros c L. unfold addz. rewrite map_length, combine_length, L. apply Nat.min_id. Qed.
    Lemma flip_len : length (flip_cols z y cs) = k.
    Proof. unfold flip_cols. rewrite map_length, combine_length, seq_length. apply Nat.min_id. Qed.
    Lemma flip_nth : forall j, j < k -> nth j (flip_cols z y cs) [] = if nth j y false then addz (nth j cs []) else nth j cs [].
    Proof.
      intros j Hj. unfold flip_cols. rewrite (nth_map_in _ _ _ _ _ (0, [])) by (rewrite combine_length, seq_length; unfold k in Hj; clear -Hj; lia).
      rewrite combine_nth by (rewrite seq_length; reflexivity). cbn [fst snd]. rewrite seq_nth by exact Hj. reflexivity.
    Qed.
    Hypothesis Hz : length z = n.
    Lemma col_len : forall j, j < k -> length (nth j cs []) = n.
    Proof. intros j Hj. apply OK. apply nth_In. exact Hj. Qed.
    Lemma flip_sig : forall a b g, a < n -> b < n -> g < n ->
      xs (mono a b g) (flip_cols z y cs) = xorb (xs (mono a b g) cs) (mono a b g z && xsum (fun j => nth j y false) k).
    Proof.
      intros a b g Ha Hb Hg. rewrite !xs_xsum, flip_len. fold k.
      rewrite (xsum_ext _ (fun j => xorb (mono a b g (nth j cs [])) (xorb (xorb (bit z a && ((bit (nth j cs []) b && bit (nth j cs []) g) && nth j y false))
                 (xorb (bit z b && ((bit (nth j cs []) a && bit (nth j cs []) g) && nth j y false)) (bit z g && ((bit (nth j cs []) a && bit (nth j cs []) b) && nth j y false))))
               (xorb (xorb ((bit z a && bit z b) && (bit (nth j cs []) g && nth j y false)) (xorb ((bit z a && bit z g) && (bit (nth j cs []) b && nth j y false)) ((bit z b && bit z g) && (bit (nth j cs []) a && nth j y false))))
                     (mono a b g z && nth j y false))))).
      2: { intros j Hj. rewrite flip_nth by exact Hj. destruct (nth j y false) eqn:Y.
           - unfold mono. rewrite !addz_bit by (rewrite col_len; auto).
             destruct (bit (nth j cs []) a), (bit (nth j cs []) b), (bit (nth j cs []) g), (bit z a), (bit z b), (bit z g); reflexivity.
           - rewrite !andb_false_r. simpl. rewrite xorb_false_r. reflexivity. }
      rewrite !xsum_xor, !xsum_andl.
      change (xsum (fun k0 : nat => bit (nth k0 cs []) b && bit (nth k0 cs []) g && nth k0 y false) k) with (dot y (fun c => bit c b && bit c g)).
      change (xsum (fun k0 : nat => bit (nth k0 cs []) a && bit (nth k0 cs []) g && nth k0 y false) k) with (dot y (fun c => bit c a && bit c g)).
      change (xsum (fun k0 : nat => bit (nth k0 cs []) a && bit (nth k0 cs []) b && nth k0 y false) k) with (dot y (fun c => bit c a && bit c b)).
      change (xsum (fun k0 : nat => bit (nth k0 cs []) g && nth k0 y false) k) with (dot y (fun c => bit c g)).
      change (xsum (fun k0 : nat => bit (nth k0 cs []) b && nth k0 y false) k) with (dot y (fun c => bit c b)).
      change (xsum (fun k0 : nat => bit (nth k0 cs []) a && nth k0 y false) k) with (dot y (fun c => bit c a)).
      rewrite !null1 by auto. rewrite !andb_false_r. cbn [xorb]. change (xorb (bit z a && _) _) with (third a b g). rewrite third_all by auto. f_equal. destruct (mono a b g z && _); reflexivity.
    Qed.
  End Null.
End Xi.
Lemma odd_xsum : forall y, Nat.odd (nones y) = xsum (fun j => nth j y false) (length y).
Proof.
  unfold nones. induction y as [|b y IH]; auto. cbn [length]. rewrite xsum_shift. cbn [nth filter]. rewrite <- IH. destruct b; cbn [length xorb].
  - rewrite Nat.odd_succ, <- Nat.negb_odd. reflexivity.
  - destruct (Nat.odd _); reflexivity.
Qed.

(** ** The TODD step *)
Lemma find_loop_ok : forall n cs, colsok n cs -> cs <> [] -> n <> 0 -> forall ps h, exists o h', find_loop (transpose cs) ps h = Ok (o, h') /\
  forall a b z y, o = Some (a, b, z, y) -> In (a, b) ps /\ z = col_diff (transpose cs) a b /\ length y = length cs /\
    xorb (nth a y false) (nth b y false) = true /\
    forall i, i < rows (xi (transpose cs) z) -> colprod (xi (transpose cs) z) (fun j => nth j y false) i = false.
Proof.
  intros n cs OK Hk Hn. induction ps as [|[a b] ps IH]; intros h.
  - exists None, h. split; [reflexivity|]. intros. discriminate.
  - cbn [find_loop]. set (z := col_diff (transpose cs) a b). destruct (nullspace_spec h (xi (transpose cs) z) (xi_wfm n cs OK Hk Hn z)) as [vs [h' [E [V _]]]]. rewrite E. cbn [bind fst snd].
    destruct (find (fun y => xorb (nth a y false) (nth b y false)) vs) as [y|] eqn:F.
    + apply find_some in F. destruct F as [Fi Fy]. destruct (V y Fi) as [Ly Ny]. exists (Some (a, b, z, y)), h'. split; [reflexivity|].
      intros a' b' z' y' Q. inversion Q; subst. split; [left; reflexivity|]. split; [reflexivity|]. split; [rewrite Ly; apply (xi_cols n cs OK Hk Hn)|]. split; auto.
    + destruct (IH h') as [o [h2 [A B]]]. exists o, h2. split; [exact A|]. intros a' b' z' y' Q. destruct (B a' b' z' y' Q) as [B1 B2]. split; [right; exact B1|exact B2].
Qed.
Lemma todd_pairs_in : forall k a b, In (a, b) (todd_pairs k) -> a < b < k.
Proof.
  intros k a b H. unfold todd_pairs in H. apply in_flat_map in H. destruct H as [x [Hx H]]. apply in_map_iff in H. destruct H as [y [E Hy]]. inversion E; subst.
  apply in_seq in Hx. apply in_seq in Hy. lia.
Qed.
Lemma col_diff_bit : forall n cs a b i, colsok n cs -> n <> 0 -> a < length cs -> b < length cs -> i < n ->
  bit (col_diff (transpose cs) a b) i = xorb (bit (nth a cs []) i) (bit (nth b cs []) i).
Proof.
  intros n cs a b i OK Hn Ha Hb Hi. assert (Hk : cs <> []) by (intros ->; simpl in Ha; lia). unfold bit at 1, col_diff.
  rewrite (nth_map_in _ _ _ _ _ []) by (change (i < rows (transpose cs)); rewrite (m_rows n cs); auto).
  change (nth i (transpose cs) []) with (row (transpose cs) i). rewrite !(m_bit n cs) by auto. destruct (bit (nth a cs []) i), (bit (nth b cs []) i); reflexivity.
Qed.
Lemma col_diff_len : forall n cs a b, colsok n cs -> cs <> [] -> n <> 0 -> length (col_diff (transpose cs) a b) = n.
Proof. intros n cs a b OK Hk Hn. unfold col_diff. rewrite map_length. exact (m_rows n cs OK Hk Hn). Qed.
Lemma bit_ext : forall n c d, length c = n -> length d = n -> (forall i, i < n -> bit c i = bit d i) -> c = d.
Proof. intros n c d L1 L2 H. apply (nth_ext _ _ false false); [congruence|]. intros i Hi. apply H. lia. Qed.

Theorem do_todd_ok : forall n cs h, colsok n cs -> n <> 0 -> exists cs' r h', do_todd_single h (transpose cs) = Ok ((transpose cs', r), h') /\
  colsok n cs' /\ sig_eq n cs cs' /\ ((r = 0%Z /\ cs' = cs) \/ (r = (Z.of_nat (length cs) - Z.of_nat (length cs'))%Z /\ length cs' < length cs /\ nontrivial cs')).
Proof.
  intros n cs h OK Hn. destruct (list_eq_dec (list_eq_dec bool_dec) cs []) as [->|Hk].
  - exists [], 0%Z, h. split; [reflexivity|]. split; [easy|]. split; [apply sig_refl|]. left. auto.
  - unfold do_todd_single, find_todd_match. rewrite (m_cols n cs) by auto.
    destruct (find_loop_ok n cs OK Hk Hn (todd_pairs (length cs)) h) as [o [h' [E M]]]. rewrite E. cbn [bind fst snd].
    destruct o as [[[[a b] z] y]|].
    2: { exists cs, 0%Z, h'. split; [reflexivity|]. split; [exact OK|]. split; [apply sig_refl|]. left. auto. }
    destruct (M a b z y eq_refl) as [Hab [Zd [Ly [Yab N]]]]. apply todd_pairs_in in Hab. assert (Hz : length z = n) by (subst z; apply col_diff_len; auto).
    rewrite (transpose_invol n) by auto. set (f := flip_cols z y cs). set (f' := if Nat.odd (nones y) then f ++ [z] else f).
    assert (Lf : length f = length cs) by (apply flip_len).
    assert (Lf' : length cs <= length f' <= length cs + 1) by (unfold f'; destruct (Nat.odd (nones y)); [rewrite app_length; simpl|]; lia).
    assert (Nf : forall j, j < length cs -> nth j f' [] = if nth j y false then addz z (nth j cs []) else nth j cs []).
    { intros j Hj. rewrite <- (flip_nth cs z y j Hj). fold f. unfold f'. destruct (Nat.odd (nones y)); auto. apply app_nth1. lia. }
    assert (CL : forall j, j < length cs -> length (nth j cs []) = n) by (intros j Hj; apply OK; apply nth_In; exact Hj).
    assert (OKf : colsok n f').
    { assert (X : colsok n f).
      { intros c Hc. destruct (In_nth _ _ [] Hc) as [j [Hj Ej]]. rewrite Lf in Hj. unfold f in Ej. rewrite (flip_nth cs z y j Hj) in Ej. subst c.
        destruct (nth j y false); [rewrite addz_len|]; rewrite ?CL; auto. }
      unfold f'. destruct (Nat.odd (nones y)); auto. intros c Hc. apply in_app_iff in Hc. destruct Hc as [Hc|[<-|[]]]; auto. }
    assert (Sf : sig_eq n cs f').
    { intros p q r Hp Hq Hr. assert (X := flip_sig n cs OK Hk Hn z y N Hz p q r Hp Hq Hr). fold f in X. unfold f'. rewrite odd_xsum, Ly. 
      destruct (xsum (fun j => nth j y false) (length cs)) eqn:Q.
      - rewrite xs_app. rewrite X. simpl. rewrite andb_true_r. destruct (xs (mono p q r) cs), (mono p q r z); reflexivity.
      - rewrite X, andb_false_r, xorb_false_r. reflexivity. }
    assert (Eq : nth a f' [] = nth b f' []).
    { rewrite !Nf by lia. apply (bit_ext n).
      - destruct (nth a y false); [rewrite addz_len|]; rewrite ?CL; auto; lia.
      - destruct (nth b y false); [rewrite addz_len|]; rewrite ?CL; auto; lia.
      - intros i Hi. assert (D := col_diff_bit n cs a b i OK Hn ltac:(lia) ltac:(lia) Hi). rewrite <- Zd in D.
        destruct (nth a y false), (nth b y false); simpl in Yab; try discriminate; rewrite addz_bit by (rewrite CL; [auto|lia]); rewrite D; destruct (bit (nth a cs []) i), (bit (nth b cs []) i); reflexivity. }
    destruct (pop_ok f' b ltac:(lia)) as [p1 [P1 [L1 [X1 [I1 N1]]]]]. rewrite P1. cbn [bind].
    destruct (pop_ok p1 a ltac:(lia)) as [p2 [P2 [L2 [X2 [I2 _]]]]]. rewrite P2. cbn [bind].
    destruct (remove_trivial_ok p2) as [cs' [R [NT [L3 [SG I3]]]]]. rewrite R. cbn [bind].
    eexists cs', _, h'. split; [reflexivity|]. split; [intros c Hc; apply OKf; auto|]. split.
    + intros p q r Hp Hq Hr. rewrite <- (SG n p q r Hp Hq Hr). rewrite (Sf p q r Hp Hq Hr). rewrite X1, X2, N1, Eq by lia.
      destruct (mono p q r (nth b f' [])), (xs (mono p q r) p2); reflexivity.
    + right. split; [reflexivity|]. split; [lia|exact NT].
Qed.

Lemma todd_loop_ok : forall n fuel cs h, colsok n cs -> n <> 0 -> nontrivial cs -> length cs < fuel -> exists cs' h', todd_loop fuel h (transpose cs) = Ok (transpose cs', h') /\
  colsok n cs' /\ sig_eq n cs cs' /\ length cs' <= length cs /\ nontrivial cs'.
Proof.
  intros n. induction fuel as [|f IH]; intros cs h OK Hn NT L; [lia|]. cbn [todd_loop].
  destruct (do_todd_ok n cs h OK Hn) as [cs1 [r [h1 [E [OK1 [S1 [[R ->]|[R [L1 NT1]]]]]]]]]; rewrite E; cbn [bind fst snd].
  - subst r. exists cs, h1. split; [reflexivity|]. auto.
  - destruct (Z.eqb_spec r 0) as [Z|_]; [lia|]. destruct (IH cs1 h1 OK1 Hn NT1 ltac:(lia)) as [cs' [h' [A [B [D [F G]]]]]].
    exists cs', h'. split; [exact A|]. split; auto. split; [eapply sig_trans; eauto|]. split; [lia|exact G].
Qed.
(** todd_iter: whatever the shuffle does, the columns have the same signature, none is zero, no two are equal *)
Theorem todd_iter_ok : forall n sh cs h, colsok n cs -> n <> 0 -> (forall l, Permutation (sh l) l) ->
  exists cs' h', todd_iter sh h (transpose cs) = Ok (transpose cs', h') /\
    colsok n cs' /\ sig_eq n cs cs' /\ nontrivial cs' /\ exists cs0, remove_trivial_cols cs = Ok cs0 /\ length cs' <= length cs0.
Proof.
  intros n sh cs h OK Hn SH. unfold todd_iter. rewrite (transpose_invol n) by auto.
  destruct (remove_trivial_ok cs) as [c1 [R [NT [L [SG I]]]]]. rewrite R. cbn [bind].
  assert (P := SH c1). assert (OK1 : colsok n (sh c1)) by (intros c Hc; apply OK, I; apply (Permutation_in _ P Hc)).
  assert (NT1 : nontrivial (sh c1)). { split; [apply (Permutation_NoDup (Permutation_sym P)), NT|]. intros c Hc. apply NT. apply (Permutation_in _ P Hc). }
  assert (S1 : sig_eq n cs (sh c1)) by (intros p q r Hp Hq Hr; rewrite (SG n p q r Hp Hq Hr); apply xs_perm, Permutation_sym, P).
  destruct (sh c1) as [|d ds] eqn:Es.
  - exists [], h. split; [reflexivity|]. split; auto. split; auto. split; auto. exists c1. split; auto. simpl. lia.
  - rewrite <- Es in *. assert (NE : sh c1 <> []) by (rewrite Es; easy). rewrite (m_cols n (sh c1)), (m_rows n (sh c1)) by auto.
    assert (K : length (sh c1) <> 0) by (rewrite Es; simpl; lia). destruct (Nat.eqb_spec (length (sh c1)) 0); [lia|]. destruct (Nat.eqb_spec n 0); [lia|]. cbn [orb].
    destruct (todd_loop_ok n (S (length (sh c1))) (sh c1) h OK1 Hn NT1 ltac:(lia)) as [cs' [h' [A [B [D [F G]]]]]].
    exists cs', h'. split; [exact A|]. split; auto. split; [eapply sig_trans; eauto|]. split; auto. exists c1. split; auto. rewrite <- (Permutation_length P). exact F.
Qed.
